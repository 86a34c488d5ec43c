(** Exact behaviour of FiniteDifference / MPIFiniteDifference where the natural expectation fails:
    C28 (shape kept from the first call), C48 (point kept from the last explicit call), C49 (exceptions),
    C50 (calls without argument of the MPI version). *)
From Coq Require Import List Arith Lia Bool Reals Lra.
From Verif Require Import ListAux PartitionModel PartitionProps FDModel FDProps.
Import ListNotations.
Local Open Scope nat_scope.

(** ---- one call, with the shape and the steps known ------------------------------------------- *)
(** the shape the call works with: the stored one, else (outputs, free dofs) of an evaluation at opt.x *)
Definition shape (f : vec -> option vec) (s : fd) (ox : vec) (sz : nat * nat) : Prop :=
  fd_size s = Some sz \/ (fd_size s = None /\ exists out, f ox = Some out /\ sz = (length out, length ox)).
(** the state after a call that got past the first evaluation *)
Definition after (s : fd) (x : option vec) (sz : nat * nat) : fd :=
  mkFD (fd_abs s) (fd_rel s) (fd_centered s) (match x with Some v => Some v | None => fd_x0 s end) (Some sz).

Lemma jac_unfold f s ox x m nc steps : shape f s ox (m, nc) ->
  finite_difference_steps (eval_point s ox x) (fd_abs s) (fd_rel s) = inr steps ->
  jac f s ox x =
    let x0 := eval_point s ox x in
    match (if fd_centered s then centered_loop f m x0 steps (seq 0 (length x0)) ox (repeat (repeat 0%R m) nc)
           else match eval_at f ox x0 with
                | (ox1, None) => (ox1, None)
                | (ox1, Some f0) => forward_loop f m x0 steps f0 (seq 0 (length x0)) ox1 (repeat (repeat 0%R m) nc)
                end) with
    | (ox', None) => (after s x (m, nc), ox', None)
    | (ox', Some J') => match set_x ox' ox with
                        | Some ox'' => (after s x (m, nc), ox'', Some J')
                        | None => (after s x (m, nc), ox', None)
                        end
    end.
Proof.
  intros Hs Hst. unfold jac, eval_point, after in *. cbv zeta.
  destruct x as [v|]; cbn [fd_x0 fd_size fd_abs fd_rel fd_centered] in *.
  - destruct Hs as [Hs|(Hs & out & Ho & Hz)]; rewrite Hs.
    + cbn [fd_abs fd_rel fd_centered fd_x0 fd_size]. rewrite Hst. reflexivity.
    + rewrite Ho. inversion Hz; subst. cbn [fd_abs fd_rel fd_centered]. rewrite Hst. reflexivity.
  - destruct Hs as [Hs|(Hs & out & Ho & Hz)]; rewrite Hs.
    + rewrite Hst. destruct s as [a1 r1 c1 x1 z1]; cbn [fd_abs fd_rel fd_centered fd_x0 fd_size] in *. subst. reflexivity.
    + rewrite Ho. inversion Hz; subst. cbn [fd_abs fd_rel fd_centered]. rewrite Hst. reflexivity.
Qed.

Lemma forward_app f m x0 steps f0 js1 js2 : forall ox J,
  forward_loop f m x0 steps f0 (js1 ++ js2) ox J =
  match forward_loop f m x0 steps f0 js1 ox J with
  | (o, None) => (o, None) | (o, Some J') => forward_loop f m x0 steps f0 js2 o J' end.
Proof.
  induction js1 as [|j js1 IH]; intros ox J; [reflexivity|]. cbn [app forward_loop].
  destruct (eval_at f ox _) as [o [v|]]; [|reflexivity]. destruct (np2 _ _ _); [|reflexivity].
  destruct (set_col _ _ _ _); [|reflexivity]. apply IH.
Qed.
Lemma centered_app f m x0 steps js1 js2 : forall ox J,
  centered_loop f m x0 steps (js1 ++ js2) ox J =
  match centered_loop f m x0 steps js1 ox J with
  | (o, None) => (o, None) | (o, Some J') => centered_loop f m x0 steps js2 o J' end.
Proof.
  induction js1 as [|j js1 IH]; intros ox J; [reflexivity|]. cbn [app centered_loop].
  destruct (eval_at f ox _) as [o [v|]]; [|reflexivity]. destruct (eval_at f o _) as [o2 [w|]]; [|reflexivity].
  destruct (np2 _ _ _); [|reflexivity]. destruct (set_col _ _ _ _); [|reflexivity]. apply IH.
Qed.
Lemma set_col_len m J j v J' : set_col m J j v = Some J' -> length J' = length J.
Proof.
  unfold set_col. destruct (j <? length J); [|discriminate]. destruct (length v =? m).
  - intros [= <-]. apply length_upd.
  - destruct v as [|b [|]]; try discriminate. intros [= <-]. apply length_upd.
Qed.
Lemma forward_len f m x0 steps f0 js : forall ox J o J', forward_loop f m x0 steps f0 js ox J = (o, Some J') -> length J' = length J.
Proof.
  induction js as [|j js IH]; intros ox J o J' H; cbn [forward_loop] in H; [now inversion H|].
  destruct (eval_at f ox _) as [o1 [v|]]; [|discriminate]. destruct (np2 _ _ _); [|discriminate].
  destruct (set_col _ _ _ _) eqn:E; [|discriminate]. apply set_col_len in E. apply IH in H. lia.
Qed.
Lemma centered_len f m x0 steps js : forall ox J o J', centered_loop f m x0 steps js ox J = (o, Some J') -> length J' = length J.
Proof.
  induction js as [|j js IH]; intros ox J o J' H; cbn [centered_loop] in H; [now inversion H|].
  destruct (eval_at f ox _) as [o1 [v|]]; [|discriminate]. destruct (eval_at f o1 _) as [o2 [w|]]; [|discriminate].
  destruct (np2 _ _ _); [|discriminate].
  destruct (set_col _ _ _ _) eqn:E; [|discriminate]. apply set_col_len in E. apply IH in H. lia.
Qed.
Lemma set_col_out m J j v : length J <= j -> set_col m J j v = None.
Proof. intros H. unfold set_col. apply Nat.ltb_ge in H. now rewrite H. Qed.

(** ---- histories of calls: between two calls everything else may change (the objective, the number and the values
    of the free dofs), only the FiniteDifference object is the same *)
Definition call := ((vec -> option vec) * vec * option vec)%type.
Fixpoint calls (s : fd) (h : list call) : fd * list (option cols) :=
  match h with
  | [] => (s, [])
  | (f, ox, x) :: r => let '(s', _, J) := jac f s ox x in let '(s'', Js) := calls s' r in (s'', J :: Js)
  end.

Lemma jac_state f s ox x : let s' := fst (fst (jac f s ox x)) in
  fd_abs s' = fd_abs s /\ fd_rel s' = fd_rel s /\ fd_centered s' = fd_centered s /\
  fd_x0 s' = match x with Some v => Some v | None => fd_x0 s end /\
  fd_size s' = match fd_size s with Some z => Some z | None => match f ox with Some out => Some (length out, length ox) | None => None end end.
Proof.
  unfold jac. cbv zeta.
  set (s1 := match x with Some v => mkFD (fd_abs s) (fd_rel s) (fd_centered s) (Some v) (fd_size s) | None => s end).
  assert (E : fd_abs s1 = fd_abs s /\ fd_rel s1 = fd_rel s /\ fd_centered s1 = fd_centered s /\
    fd_x0 s1 = match x with Some v => Some v | None => fd_x0 s end /\ fd_size s1 = fd_size s) by (subst s1; destruct x; cbn; auto).
  destruct E as (E1 & E2 & E3 & E4 & E5). rewrite <- E5. destruct (fd_size s1) as [[m nc]|] eqn:Z.
  - destruct (finite_difference_steps _ _ _); [cbn; auto 6|].
    match goal with |- context [if ?c then centered_loop ?u ?v ?w ?x ?y ?z ?t else ?e] =>
      destruct (if c then centered_loop u v w x y z t else e) as [? [?|]] end;
      try (destruct (set_x _ _)); cbn [fst]; auto 6.
  - destruct (f ox) as [out|]; [|cbn; auto 6].
    destruct (finite_difference_steps _ _ _); [cbn; auto 6|].
    match goal with |- context [if ?c then centered_loop ?u ?v ?w ?x ?y ?z ?t else ?e] =>
      destruct (if c then centered_loop u v w x y z t else e) as [? [?|]] end;
      try (destruct (set_x _ _)); cbn [fst]; auto 6.
Qed.
Lemma jac_len f s ox x s' ox' J : jac f s ox x = (s', ox', Some J) -> exists m, fd_size s' = Some (m, length J).
Proof.
  intros H.
  assert (K := jac_state f s ox x). rewrite H in K. cbn [fst] in K. destruct K as (K1 & K2 & K3 & K4 & K5).
  assert (S : exists z, shape f s ox z).
  { unfold shape. destruct (fd_size s) as [z|] eqn:Z; [exists z; auto|]. destruct (f ox) as [out|] eqn:F.
    - exists (length out, length ox). eauto.
    - unfold jac in H. cbv zeta in H. destruct x; cbn in H; rewrite Z, F in H; discriminate. }
  destruct S as [[m nc] S]. destruct (finite_difference_steps (eval_point s ox x) (fd_abs s) (fd_rel s)) as [e|steps] eqn:Hst.
  - exfalso. unfold jac in H. cbv zeta in H. unfold eval_point in Hst.
    destruct x as [v|]; cbn [fd_x0 fd_size fd_abs fd_rel fd_centered] in H;
      (destruct S as [S|(S & out & F & _)]; rewrite S in H; [|rewrite F in H; cbn [fd_abs fd_rel] in H]);
      cbn [fd_abs fd_rel] in H; try rewrite Hst in H; discriminate.
  - rewrite (jac_unfold f s ox x m nc steps S Hst) in H. cbv zeta in H.
    assert (L : length J = nc /\ s' = after s x (m, nc)).
    { destruct (fd_centered s).
      - destruct (centered_loop _ _ _ _ _ _ _) as [o [J'|]] eqn:E; [|discriminate]. apply centered_len in E. rewrite repeat_length in E.
        destruct (set_x o ox); inversion H; subst; auto.
      - destruct (eval_at f ox _) as [o1 [f0|]]; [|discriminate].
        destruct (forward_loop _ _ _ _ _ _ _ _) as [o [J'|]] eqn:E; [|discriminate]. apply forward_len in E. rewrite repeat_length in E.
        destruct (set_x o ox); inversion H; subst; auto. }
    destruct L as [L ->]. exists m. cbn. now rewrite L.
Qed.

(** ---------------------------------------------------------------- C28 *)
(** Every matrix ever returned by one FiniteDifference object has as many columns as there were free dofs at its first
    call (the first one whose initial evaluation succeeded), whatever has been fixed or unfixed since. *)
Lemma calls_shape h : forall s m nc, fd_size s = Some (m, nc) ->
  forall J, In (Some J) (snd (calls s h)) -> length J = nc.
Proof.
  induction h as [|[[f ox] x] h IH]; intros s m nc Hs J H; [destruct H|]. cbn [calls] in H.
  assert (K := jac_state f s ox x). destruct (jac f s ox x) as [[s' o] J1] eqn:E. cbn [fst] in K.
  destruct K as (_ & _ & _ & _ & K). rewrite Hs in K.
  destruct (calls s' h) as [s'' Js] eqn:E2. cbn [snd] in H. destruct H as [->|H].
  - apply jac_len in E. destruct E as [m' E]. rewrite K in E. inversion E. reflexivity.
  - eapply IH; eauto. rewrite E2. exact H.
Qed.
Theorem C28_columns_of_the_first_call : forall x0 a r c (pre : list call) f ox x out (post : list call),
  (forall g v y, In (g, v, y) pre -> g v = None) -> f ox = Some out ->
  forall J, In (Some J) (snd (calls (fd_new x0 a r c) (pre ++ (f, ox, x) :: post))) -> length J = length ox.
Proof.
  intros x0 a r c pre f ox x out post Hpre Hf J.
  assert (Z : fd_size (fd_new x0 a r c) = None) by reflexivity. revert Z. generalize (fd_new x0 a r c). clear x0 a r c.
  induction pre as [|[[g v] y] pre IH]; intros s Z H.
  - cbn [app] in H. cbn [calls] in H.
    assert (K := jac_state f s ox x). destruct (jac f s ox x) as [[s' o] J1] eqn:E. cbn [fst] in K.
    destruct K as (_ & _ & _ & _ & K). rewrite Z, Hf in K. destruct (calls s' post) as [s'' Js] eqn:E2. cbn [snd] in H.
    destruct H as [->|H].
    + apply jac_len in E. destruct E as [m' E]. rewrite K in E. inversion E. congruence.
    + eapply calls_shape; [exact K|]. rewrite E2. exact H.
  - cbn [app calls] in H. assert (K := jac_state g s v y). destruct (jac g s v y) as [[s' o] J1] eqn:E. cbn [fst] in K.
    destruct K as (_ & _ & _ & _ & K). rewrite Z, (Hpre g v y) in K by now left.
    destruct (calls s' (pre ++ (f, ox, x) :: post)) as [s'' Js] eqn:E2. cbn [snd] in H. destruct H as [->|H].
    + apply jac_len in E. destruct E as [m' E]. congruence.
    + apply (IH ltac:(intros; eapply Hpre; right; eauto) s' K). rewrite E2. exact H.
Qed.

(** With n free dofs now and nc columns remembered: for n <= nc the first n columns are the Jacobian and the others are
    zero; for n > nc the call raises, and opt.x keeps the point displaced in direction nc. *)
Theorem C28_columns : forall f s ox x m nc steps,
  total_on f (length ox) m -> length (eval_point s ox x) = length ox -> fd_size s = Some (m, nc) ->
  finite_difference_steps (eval_point s ox x) (fd_abs s) (fd_rel s) = inr steps ->
  (length ox <= nc -> exists s' J, jac f s ox x = (s', ox, Some J) /\ length J = nc /\
      (forall j, j < length ox -> nth_error J j =
         Some (quotient f m (fd_centered s) (eval_point s ox x) j (nth j steps 0%R))) /\
      (forall j, length ox <= j < nc -> nth_error J j = Some (repeat 0%R m))) /\
  (nc < length ox -> exists s', jac f s ox x = (s', moved (eval_point s ox x) nc
      (if fd_centered s then (- nth nc steps 0)%R else nth nc steps 0%R), None)).
Proof.
  intros f s ox x m nc steps Hf Hx Hs Hst. rewrite (jac_unfold f s ox x m nc steps (or_introl Hs) Hst). cbv zeta.
  set (x0 := eval_point s ox x) in *. rewrite Hx. set (J0 := repeat (repeat 0%R m) nc).
  assert (LJ : length J0 = nc) by apply repeat_length.
  assert (L : forall j d, length (moved x0 j d) = length ox) by (intros; now rewrite length_moved).
  split; intros Hn.
  - assert (Hjs : forall j, In j (seq 0 (length ox)) -> j < length J0) by (intros j Hj; apply in_seq in Hj; lia).
    set (col := fun j => quotient f m (fd_centered s) x0 j (nth j steps 0%R)).
    assert (R : exists s', (match (if fd_centered s then centered_loop f m x0 steps (seq 0 (length ox)) ox J0
        else match eval_at f ox x0 with (ox1, None) => (ox1, None)
             | (ox1, Some f0) => forward_loop f m x0 steps f0 (seq 0 (length ox)) ox1 J0 end) with
        | (ox', None) => (after s x (m, nc), ox', None)
        | (ox', Some J') => match set_x ox' ox with Some ox'' => (after s x (m, nc), ox'', Some J')
                            | None => (after s x (m, nc), ox', None) end end) = (s', ox, Some (put col J0 (seq 0 (length ox))))).
    { subst col. destruct (fd_centered s).
      - destruct (centered_loop_ok f _ m Hf x0 steps Hx (seq 0 (length ox)) ox J0 eq_refl Hjs) as (ox' & Lo & Eo).
        rewrite Eo. unfold set_x. rewrite Lo, Nat.eqb_refl. eauto.
      - rewrite (eval_at_ok f _ m Hf ox x0 eq_refl Hx).
        destruct (forward_loop_ok f _ m Hf x0 steps Hx (seq 0 (length ox)) x0 J0 Hx Hjs) as (ox' & Lo & Eo).
        rewrite Eo. unfold set_x. rewrite Lo, Nat.eqb_refl. eauto. }
    destruct R as [s' R]. exists s', (put col J0 (seq 0 (length ox))). split; [exact R|]. split; [now rewrite put_length|]. split.
    + intros j Hj. rewrite put_nth; [reflexivity|apply seq_NoDup|apply in_seq; lia|unfold vec in *; rewrite LJ; lia].
    + intros j Hj. rewrite put_nth_other by (rewrite in_seq; lia). subst J0. apply nth_error_repeat. lia.
  - replace (seq 0 (length ox)) with (seq 0 nc ++ nc :: seq (S nc) (length ox - S nc)).
    2:{ change (nc :: seq (S nc) (length ox - S nc)) with (seq nc (S (length ox - S nc))). rewrite <- seq_app. f_equal. lia. }
    assert (Hjs : forall j, In j (seq 0 nc) -> j < length J0) by (intros j Hj; apply in_seq in Hj; lia).
    destruct (fd_centered s).
    + rewrite centered_app. destruct (centered_loop_ok f _ m Hf x0 steps Hx (seq 0 nc) ox J0 eq_refl Hjs) as (ox' & Lo & ->).
      cbn [centered_loop]. rewrite (eval_at_ok f _ m Hf) by auto. rewrite (eval_at_ok f _ m Hf) by auto.
      destruct (val_ok f _ m Hf (moved x0 nc (nth nc steps 0%R)) (L _ _)) as [_ L1].
      destruct (val_ok f _ m Hf (moved x0 nc (- nth nc steps 0)%R) (L _ _)) as [_ L2].
      rewrite np2_same by congruence. rewrite set_col_out by (rewrite put_length; unfold vec in *; rewrite LJ; lia). eauto.
    + rewrite (eval_at_ok f _ m Hf ox x0 eq_refl Hx). rewrite forward_app.
      destruct (forward_loop_ok f _ m Hf x0 steps Hx (seq 0 nc) x0 J0 Hx Hjs) as (ox' & Lo & ->).
      cbn [forward_loop]. rewrite (eval_at_ok f _ m Hf) by auto.
      destruct (val_ok f _ m Hf (moved x0 nc (nth nc steps 0%R)) (L _ _)) as [_ L1].
      destruct (val_ok f _ m Hf x0 Hx) as [_ L2].
      rewrite np2_same by congruence. rewrite set_col_out by (rewrite put_length; unfold vec in *; rewrite LJ; lia). eauto.
Qed.
(** both cases occur: a shape of two columns, one or three free dofs *)
Example C28_columns_ex : total_on one_dof (length [3]%R) 1 /\ total_on (affine_map 3 1 (fun _ => 0)%R (fun _ _ => 1)%R) (length [3; 4; 5]%R) 1 /\
  fd_size (after (fd_new None 1 0 true) None (1, 2)) = Some (1, 2) /\ 1 <= 2 /\ 2 < 3 /\
  exists st, finite_difference_steps [3; 4; 5]%R 1 0 = inr st.
Proof. repeat split; try apply affine_total; auto. apply steps_ones. Qed.
Print Assumptions C28_columns_of_the_first_call.
Print Assumptions C28_columns.

(** ---------------------------------------------------------------- C48 *)
(** the last explicit point of a history, if any *)
Definition last_explicit (h : list call) : option vec := fold_left (fun acc (c : call) => match snd c with Some v => Some v | None => acc end) h None.

Lemma calls_x0 h : forall s, fd_x0 (fst (calls s h)) = fold_left (fun acc (c : call) => match snd c with Some v => Some v | None => acc end) h (fd_x0 s)
  /\ fd_centered (fst (calls s h)) = fd_centered s /\ fd_abs (fst (calls s h)) = fd_abs s /\ fd_rel (fst (calls s h)) = fd_rel s.
Proof.
  induction h as [|[[f ox] x] h IH]; intros s; [cbn; auto|]. cbn [calls fold_left snd].
  assert (K := jac_state f s ox x). destruct (jac f s ox x) as [[s' o] J1] eqn:E. cbn [fst] in K.
  destruct K as (K1 & K2 & K3 & K4 & K5). specialize (IH s'). destruct (calls s' h) as [s'' Js]. cbn [fst] in *.
  rewrite K1, K2, K3, K4 in IH. exact IH.
Qed.
(** jac() without argument, after any history of calls on any objectives: the Jacobian at the last point that was ever
    given explicitly if there was one (else at the x0 given to the constructor), and at opt.x only when neither exists. *)
Theorem C48_no_argument : forall x0 a r c (h : list call) f ox m steps,
  let s := fst (calls (fd_new x0 a r c) h) in
  let p := match last_explicit h with Some v => v | None => match x0 with Some v => v | None => ox end end in
  total_on f (length ox) m -> length p = length ox -> (fd_size s = None \/ fd_size s = Some (m, length ox)) ->
  finite_difference_steps p a r = inr steps ->
  exists s' J, jac f s ox None = (s', ox, Some J) /\ length J = length ox /\
    forall j, j < length ox -> nth_error J j = Some (quotient f m c p j (nth j steps 0%R)).
Proof.
  intros x0 a r c h f ox m steps s p Hf Hp Hs Hst.
  destruct (calls_x0 h (fd_new x0 a r c)) as (E1 & E2 & E3 & E4). cbn [fd_new fd_x0 fd_centered fd_abs fd_rel] in *.
  assert (EP : eval_point s ox None = p).
  { unfold eval_point, p, s, last_explicit. rewrite E1. clear. revert x0.
    assert (K : forall (l : list call) (a1 : option vec),
      fold_left (fun acc (c : call) => match snd c with Some v => Some v | None => acc end) l a1 =
      match fold_left (fun acc (c : call) => match snd c with Some v => Some v | None => acc end) l None with Some v => Some v | None => a1 end).
    { induction l as [|[[g v] y] l IH]; intros a1; cbn [fold_left snd]; [reflexivity|].
      destruct y as [y|]; [|apply IH]. rewrite (IH (Some y)). destruct (fold_left _ l None); reflexivity. }
    intros x0. rewrite K. destruct (fold_left _ h None); reflexivity. }
  fold s in E2, E3, E4.
  assert (R := jac_ok f s ox None m steps Hf ltac:(now rewrite EP) Hs ltac:(now rewrite EP, E3, E4)). rewrite EP, E2 in R.
  eexists _, _. split; [exact R|]. rewrite map_length, seq_length. split; [reflexivity|].
  intros j Hj. rewrite nth_error_map, (nth_error_nth' (seq 0 _) 0) by (rewrite seq_length; lia). rewrite seq_nth by lia. reflexivity.
Qed.
Example C48_ex : last_explicit [(square, [0]%R, Some [1]%R); (square, [7]%R, None)] = Some [1]%R /\
  fd_size (fst (calls (fd_new None 1 0 true) [])) = None /\ exists st, finite_difference_steps [1]%R 1 0 = inr st.
Proof. repeat split. apply steps_ones. Qed.
Print Assumptions C48_no_argument.

(** ---------------------------------------------------------------- C49 *)
(** the points at which the objective is evaluated, in order *)
Definition points (centered : bool) (x0 steps : vec) : list vec :=
  let at' j d := upd j (nth j x0 0 + d)%R x0 in
  if centered then flat_map (fun j => [at' j (nth j steps 0%R); at' j (- nth j steps 0)%R]) (seq 0 (length x0))
  else x0 :: map (fun j => at' j (nth j steps 0%R)) (seq 0 (length x0)).
(** where it does not raise it has [m] outputs *)
Definition outputs (f : vec -> option vec) (n m : nat) : Prop := forall v y, length v = n -> f v = Some y -> length y = m.

Definition fails (f : vec -> option vec) (v : vec) : bool := match f v with Some _ => false | None => true end.

Lemma eval_at_eq f ox v : length v = length ox -> eval_at f ox v = (v, f v).
Proof. intros H. unfold eval_at, set_x. now rewrite H, Nat.eqb_refl. Qed.
Section C49.
Variables (f : vec -> option vec) (n m : nat).
Hypothesis Hf : outputs f n m.
Lemma forward_fail x0 steps f0 : length x0 = n -> length f0 = m -> forall js ox J, length ox = n -> (forall j, In j js -> j < length J) ->
  match find (fails f) (map (fun j => moved x0 j (nth j steps 0%R)) js) with
  | Some p => forward_loop f m x0 steps f0 js ox J = (p, None)
  | None => exists o J', forward_loop f m x0 steps f0 js ox J = (o, Some J') /\ length o = n
  end.
Proof using Hf.
  intros Hx L0. induction js as [|j js IH]; intros ox J Ho Hj; [cbn; eauto|].
  cbn [map find forward_loop]. unfold fails at 1, eval_at, set_x. rewrite length_moved, Hx, Ho, Nat.eqb_refl.
  destruct (f (moved x0 j (nth j steps 0%R))) as [y|] eqn:E; [|reflexivity].
  apply Hf in E; [|now rewrite length_moved]. rewrite np2_same by congruence.
  rewrite set_col_ok; [|apply Hj; now left|rewrite !map_length, seq_length; congruence].
  apply IH; [now rewrite length_moved|]. intros k Hk. rewrite length_upd. apply Hj. now right.
Qed.
Lemma centered_fail x0 steps : length x0 = n -> forall js ox J, length ox = n -> (forall j, In j js -> j < length J) ->
  match find (fails f) (flat_map (fun j => [moved x0 j (nth j steps 0%R); moved x0 j (- nth j steps 0)%R]) js) with
  | Some p => centered_loop f m x0 steps js ox J = (p, None)
  | None => exists o J', centered_loop f m x0 steps js ox J = (o, Some J') /\ length o = n
  end.
Proof using Hf.
  intros Hx. induction js as [|j js IH]; intros ox J Ho Hj; [cbn; eauto|].
  cbn [flat_map app find centered_loop].
  rewrite (eval_at_eq f ox (moved x0 j (nth j steps 0%R))) by (rewrite length_moved; congruence).
  rewrite (eval_at_eq f (moved x0 j (nth j steps 0%R)) (moved x0 j (- nth j steps 0)%R)) by now rewrite !length_moved.
  unfold fails at 1. destruct (f (moved x0 j (nth j steps 0%R))) as [y|] eqn:E; [|reflexivity].
  unfold fails at 1. destruct (f (moved x0 j (- nth j steps 0)%R)) as [z|] eqn:E'; [|reflexivity].
  apply Hf in E; [|now rewrite length_moved]. apply Hf in E'; [|now rewrite length_moved]. rewrite np2_same by congruence.
  rewrite set_col_ok; [|apply Hj; now left|rewrite !map_length, seq_length; congruence].
  apply IH; [now rewrite length_moved|]. intros k Hk. rewrite length_upd. apply Hj. now right.
Qed.
End C49.

Lemma find_split (g : vec -> bool) l p : find g l = Some p <-> exists pre post, l = pre ++ p :: post /\ (forall q, In q pre -> g q = false) /\ g p = true.
Proof.
  split.
  - induction l as [|a l IH]; cbn; [discriminate|]. destruct (g a) eqn:E.
    + intros [= ->]. exists [], l. split; [reflexivity|]. split; [intros ? []|auto].
    + intros H. apply IH in H. destruct H as (pre & post & -> & H1 & H2). exists (a :: pre), post. split; [reflexivity|].
      split; [|auto]. intros q [<-|Hq]; auto.
  - intros (pre & post & -> & H1 & H2). induction pre as [|a pre IH]; cbn; [now rewrite H2|]. rewrite (H1 a) by now left.
    apply IH. intros; apply H1; now right.
Qed.

(** opt.x after a call: the value before it when no evaluation raises; otherwise the point at which the objective
    raised first.  When the very first evaluation, the one that finds the shape, raises, opt.x is unchanged. *)
Theorem C49_x_after_the_call : forall f s ox x m steps,
  outputs f (length ox) m -> length (eval_point s ox x) = length ox ->
  finite_difference_steps (eval_point s ox x) (fd_abs s) (fd_rel s) = inr steps ->
  (fd_size s = Some (m, length ox) \/ fd_size s = None) ->
  (fd_size s = None -> f ox = None -> exists s', jac f s ox x = (s', ox, None)) /\
  (fd_size s <> None \/ f ox <> None ->
   let l := points (fd_centered s) (eval_point s ox x) steps in
   ((forall q, In q l -> f q <> None) -> exists s' J, jac f s ox x = (s', ox, Some J)) /\
   (forall pre p post, l = pre ++ p :: post -> (forall q, In q pre -> f q <> None) -> f p = None ->
      exists s', jac f s ox x = (s', p, None))).
Proof.
  intros f s ox x m steps Hf Hx Hst Hs. split.
  - intros Z F. unfold jac. cbv zeta. destruct x; cbn [fd_size]; rewrite Z, F; eauto.
  - intros Hne l.
    assert (Sh : shape f s ox (m, length ox)).
    { unfold shape. destruct Hs as [Hs|Hs]; [auto|]. right. split; [auto|]. destruct Hne as [?|Hne]; [congruence|].
      destruct (f ox) as [out|] eqn:F; [|congruence]. exists out. split; [auto|]. now rewrite (Hf ox out eq_refl F). }
    assert (K : match find (fails f) l with
                | Some p => exists s', jac f s ox x = (s', p, None)
                | None => exists s' J, jac f s ox x = (s', ox, Some J) end).
    { rewrite (jac_unfold f s ox x m (length ox) steps Sh Hst). cbv zeta. subst l. unfold points.
      set (x0 := eval_point s ox x) in *.
      assert (Hjs : forall j, In j (seq 0 (length x0)) -> j < length (repeat (repeat 0%R m) (length ox)))
        by (intros j Hj; apply in_seq in Hj; rewrite repeat_length; lia).
      destruct (fd_centered s).
      - assert (C := centered_fail f (length ox) m Hf x0 steps Hx (seq 0 (length x0)) ox _ eq_refl Hjs). unfold moved in C.
        destruct (find _ _) as [p|].
        + rewrite C. eauto.
        + destruct C as (o & J' & -> & Lo). unfold set_x. rewrite Lo, Nat.eqb_refl. eauto.
      - cbn [find]. unfold fails at 1. unfold eval_at, set_x. rewrite Hx, Nat.eqb_refl. destruct (f x0) as [f0|] eqn:F0; [|eauto].
        apply Hf in F0; [|auto]. rewrite Hx in Hjs.
        assert (C := forward_fail f (length ox) m Hf x0 steps f0 Hx F0 (seq 0 (length ox)) x0 _ Hx Hjs). unfold moved in C.
        destruct (find _ _) as [p|].
        + rewrite C. eauto.
        + destruct C as (o & J' & -> & Lo). rewrite Lo, Nat.eqb_refl. eauto. }
    assert (Ff : forall q, fails f q = false <-> f q <> None) by (intros q; unfold fails; destruct (f q); split; congruence).
    split.
    + intros Ha. destruct (find (fails f) l) as [p|] eqn:E; [|exact K]. apply find_some in E. destruct E as [E1 E2].
      apply Ha, Ff in E1. congruence.
    + intros pre p post E1 E2 E3. assert (E : find (fails f) l = Some p).
      { apply find_split. exists pre, post. split; [auto|]. split; [intros q Hq; apply Ff; auto|]. unfold fails. now rewrite E3. }
      rewrite E in K. exact K.
Qed.
Example C49_ex : outputs partial_f 1 1 /\ partial_f [1]%R <> None /\
  exists steps, finite_difference_steps [1]%R 1 0 = inr steps /\ exists p post, points false [1]%R steps = [[1]%R] ++ p :: post.
Proof.
  split; [|split].
  - intros [|u [|]] y L; try discriminate L. cbn. destruct (Rltb 1 u); [discriminate|]. now intros [= <-].
  - cbn. unfold Rltb. destruct (Rlt_dec 1 1); [lra|discriminate].
  - destruct (steps_ones [1]%R) as [st H]. exists st. split; [auto|]. cbn. eauto.
Qed.
Print Assumptions C49_x_after_the_call.

(** ---------------------------------------------------------------- C50 *)
(** jac() without argument on the MPI version:
    - the first call of all evaluates at the point the free dofs had when the object was built, and moves opt.x there;
    - after a call with an explicit point (or that first call) it is the Jacobian at the current opt.x;
    - after such a computation every further jac() returns that same matrix, whatever the objective and opt.x are now,
      until the next call with an explicit point. *)
Theorem C50_no_argument_first_call : forall f ngroups s ox m steps, 1 <= ngroups ->
  m_size s = None -> m_xcache s = None -> m_jcache s = None ->
  total_on f (length ox) m -> length (m_x0 s) = length ox ->
  finite_difference_steps (m_x0 s) (m_abs s) (m_rel s) = inr steps ->
  exists s' J, mpi_jac f ngroups s ox None = (s', m_x0 s, Some J) /\
    is_jacobian f m (m_centered s) (m_abs s) (m_rel s) (m_x0 s) J /\ m_xcache s' = Some (m_x0 s) /\ m_size s' = Some (m, length ox).
Proof.
  intros f g s ox m steps Hg Z X Jc Hf Hx Hst. unfold mpi_jac. rewrite X, Jc, Z. cbn [np_all_eq].
  rewrite (eval_at_ok f _ m Hf ox (m_x0 s) eq_refl Hx). unfold set_x. rewrite Nat.eqb_refl.
  destruct (val_ok f _ m Hf (m_x0 s) Hx) as [_ Lv]. rewrite Lv. cbn [m_centered m_abs m_rel m_x0].
  rewrite (mpi_core_ok f g _ _ _ m (m_x0 s) steps Hg ltac:(now rewrite Hx) Hst).
  eexists _, _. split; [reflexivity|]. split; [exists steps; auto|]. split; [reflexivity|]. cbn. now rewrite Hx.
Qed.
Theorem C50_no_argument_after_explicit : forall f ngroups s ox m steps v, 1 <= ngroups ->
  m_size s = Some (m, length ox) -> m_xcache s = Some v -> 1 <= length v ->
  total_on f (length ox) m -> finite_difference_steps ox (m_abs s) (m_rel s) = inr steps ->
  exists s' J, mpi_jac f ngroups s ox None = (s', ox, Some J) /\
    is_jacobian f m (m_centered s) (m_abs s) (m_rel s) ox J /\ m_xcache s' = None /\ m_jcache s' = Some J.
Proof.
  intros f g s ox m steps v Hg Z X Lv Hf Hst. unfold mpi_jac. rewrite X, Z. cbn [np_all_eq].
  destruct (Nat.eqb_spec (length v) 0); [lia|].
  rewrite (mpi_core_ok f g _ _ _ m ox steps Hg Hf Hst).
  eexists _, _. split; [reflexivity|]. split; [exists steps; auto|]. auto.
Qed.
Fixpoint mcalls (ngroups : nat) (s : mfd) (h : list ((vec -> option vec) * vec)) : mfd * list (option cols) :=
  match h with
  | [] => (s, [])
  | (f, ox) :: r => let '(s', _, J) := mpi_jac f ngroups s ox None in let '(s'', Js) := mcalls ngroups s' r in (s'', J :: Js)
  end.
Theorem C50_no_argument_is_frozen : forall ngroups s J h, m_xcache s = None -> m_jcache s = Some J ->
  mcalls ngroups s h = (s, map (fun _ => Some J) h).
Proof.
  intros g s J h X E. induction h as [|[f ox] h IH]; [reflexivity|]. cbn [mcalls map].
  assert (K : mpi_jac f g s ox None = (s, ox, Some J)) by (unfold mpi_jac; rewrite X, E; reflexivity). rewrite K, IH. reflexivity.
Qed.
Example C50_no_argument_ex : exists s1 s2,
  mpi_jac square 1 mfd0 [1]%R None = (s1, [1]%R, Some [[2 * 1]]%R) /\ m_xcache s1 = Some [1]%R /\ m_size s1 = Some (1, 1) /\
  mpi_jac square 1 s1 [2]%R None = (s2, [2]%R, Some [[2 * 2]]%R) /\ m_xcache s2 = None /\ m_jcache s2 = Some [[2 * 2]]%R.
Proof.
  destruct C50_no_argument_is_stale_refuted as (s1 & s2 & H1 & H2 & _). exists s1, s2.
  destruct (steps_ones [1]%R) as [st Hst]. destruct (steps_ones [2]%R) as [st2 Hst2].
  destruct (C50_no_argument_first_call square 1 mfd0 [1]%R 1 st ltac:(lia) eq_refl eq_refl eq_refl (quadratic_total _ _ _ _ _) eq_refl Hst)
    as (s1' & J & E & _ & X & Z). rewrite H1 in E. inversion E; subst.
  destruct (C50_no_argument_after_explicit square 1 s1' [2]%R 1 st2 [1]%R ltac:(lia) Z X ltac:(cbn; lia) (quadratic_total _ _ _ _ _)) as (s2' & J2 & E2 & _ & X2 & Z2).
  { assert (A : m_abs s1' = 1%R /\ m_rel s1' = 0%R).
    { unfold mpi_jac in H1. cbn [mfd0 np_all_eq m_xcache m_jcache m_size m_x0] in H1.
      rewrite (eval_at_ok square 1 1 (quadratic_total _ _ _ _ _) [1]%R [1]%R eq_refl eq_refl) in H1.
      unfold set_x in H1. cbn [length Nat.eqb] in H1. destruct (mpi_jac_core _ _ _ _ _ _ _ _); [|discriminate]. inversion H1. cbn. auto. }
    destruct A as [-> ->]. exact Hst2. }
  rewrite H2 in E2. inversion E2; subst. auto 8.
Qed.
Print Assumptions C50_no_argument_first_call.
Print Assumptions C50_no_argument_after_explicit.
Print Assumptions C50_no_argument_is_frozen.
