(** C98: results of [Vmec] are those of the current inputs. *)
From Coq Require Import Reals List ZArith Lia String Bool FunctionalExtensionality.
Import ListNotations.
From Verif Require Import ListAux VmecModel.
Open Scope nat_scope.

(** * Specification *)
Section Spec.
Context {Rest W : Type}.
Variable solver : @indata Rest -> Z * W * axis.
Variable ier_flag : W -> Z.
Variable power_fit : nat -> (R -> R) -> list R.
Variable quad01 : (R -> R) -> R.
Variable linspace01 : nat -> list R.
Notation indata := (@indata Rest).
Notation vobj := (@vobj W).
Notation world := (@world Rest W).
Notation op := (@op Rest W).
Notation outcome := (@outcome W).
Notation set_profile := (set_profile power_fit linspace01).
Notation step := (step solver ier_flag power_fit quad01 linspace01).
Notation run := (run solver ier_flag power_fit quad01 linspace01).

(** entry [101+n, m] of a boundary array: the coefficient of mode (m, n) of the boundary, if the boundary
    (cut at 101) has that mode, and 0 otherwise *)
Definition boundary_array (get : nat -> Z -> R) (mpol ntor : nat) : Z -> nat -> R :=
  fun j m => if (m <=? Nat.min mpol 101) && (- Z.of_nat (Nat.min ntor 101) <=? j - 101)%Z && (j - 101 <=? Z.of_nat (Nat.min ntor 101))%Z
             then get m (j - 101)%Z else 0%R.

(** the input data VMEC must be given for module data [i], boundary [b] and profiles [fp], [fc], [fi];
    [None] if they are not admissible *)
Definition inputs (i : indata) (b : surface) (np nc ni : nat) (fp fc fi : option (R -> R)) : option indata :=
  if (101 <? i_mpol i) || (101 <? i_ntor i) then None else
  match set_profile fp np (i_m i), set_profile fc nc (i_c i), set_profile fi ni (i_i i) with
  | Some m, Some c, Some io =>
      Some (mkI (i_lasym i) (i_mpol i) (i_ntor i)
             (mkB (boundary_array (s_rc b) (s_mpol b) (s_ntor b)) (boundary_array (s_zs b) (s_mpol b) (s_ntor b)) (rbs (i_bd i)) (zbc (i_bd i)))
             (fun _ _ => 0%R) (i_phiedge i)
             (match fc with Some f => if total_by_integral (ptype (i_c i)) then quad01 f else f 1%R | None => i_curtor i end)
             (match fp with Some _ => 1%R | None => i_pres i end) m c io (i_rest i))
  | _, _, _ => None
  end.

(** what VMEC says about input data: converged (11) with a clean wout file, or failure *)
Definition verdict (i : option indata) : outcome :=
  match i with
  | None => Raised
  | Some i => let '(ierr, x, _) := solver i in if (ierr =? 11)%Z && (ier_flag x =? 0)%Z then Out x else Raised
  end.

Definition inputs_of (i : indata) (w : world) (v : vobj) : option indata :=
  inputs i (surf w (bnd v)) (n_p v) (n_c v) (n_i v) (look w (pp v)) (look w (cp v)) (look w (ip v)).

(** ** Histories *)
Definition idle (w : world) (j : nat) : Prop := forall v, nth_error (objs w) j = Some v -> runnable v = false.
Definition used (v : vobj) (p : nat) : Prop := pp v = Some p \/ cp v = Some p \/ ip v = Some p.

(** an operation that respects object [k]: it is the only object running VMEC, no profile object is
    used in two roles, and entries of indata are assigned only while need_to_run_code is True *)
Definition respects (k : nat) (w : world) (o : op) : Prop :=
  match o with
  | NewInput _ => False
  | SetOwn j _ | Access j => j = k \/ idle w j
  | Poke _ => forall v, nth_error (objs w) k = Some v -> need v = true
  | SetBoundary _ b => b < nsurf w                  (* an existing surface *)
  | SetPressure j (Some p) => j = k -> forall v, nth_error (objs w) k = Some v -> cp v <> Some p /\ ip v <> Some p
  | SetCurrent j (Some p) => j = k -> forall v, nth_error (objs w) k = Some v -> pp v <> Some p /\ ip v <> Some p
  | SetIota j (Some p) => j = k -> forall v, nth_error (objs w) k = Some v -> pp v <> Some p /\ cp v <> Some p
  | _ => True
  end.
Fixpoint all_steps (P : world -> op -> Prop) (w : world) (h : list op) : Prop :=
  match h with [] => True | o :: r => P w o /\ all_steps P (fst (step w o)) r end.

(** additionally: indata is never assigned by the program, and a profile is never removed (only replaced) *)
Definition keeps (k : nat) (o : op) : Prop :=
  match o with
  | Poke _ => False
  | SetPressure j None | SetCurrent j None | SetIota j None => j <> k
  | _ => True
  end.

(** * Proofs *)
Lemma nth_put (w : world) k v j : k < List.length (objs w) -> nth_error (objs (put w k v)) j = if j =? k then Some v else nth_error (objs w) j.
Proof.
  intros L. cbn [put objs]. destruct (Nat.eqb_spec j k) as [->|N].
  - rewrite nth_error_app2 by (rewrite firstn_length; lia). rewrite firstn_length. replace (k - Nat.min k (List.length (objs w))) with 0 by lia. reflexivity.
  - destruct (Nat.lt_ge_cases j k).
    + rewrite nth_error_app1 by (rewrite firstn_length; lia). rewrite <- (firstn_skipn k (objs w)) at 2. rewrite nth_error_app1 by (rewrite firstn_length; lia). reflexivity.
    + rewrite nth_error_app2 by (rewrite firstn_length; lia). rewrite firstn_length. replace (j - Nat.min k (List.length (objs w))) with (S (j - S k)) by lia. cbn [nth_error].
      rewrite <- (firstn_skipn (S k) (objs w)) at 2. rewrite nth_error_app2 by (rewrite firstn_length; lia). rewrite firstn_length. f_equal. lia.
Qed.

Lemma write_prefix_len a x a' : write_prefix a x = Some a' -> List.length a' = List.length a.
Proof. unfold write_prefix. destruct (Nat.leb_spec (List.length x) (List.length a)); [|discriminate]. injection 1 as <-. rewrite app_length, repeat_length. lia. Qed.
Lemma write_prefix_same a b x : List.length a = List.length b -> write_prefix a x = write_prefix b x.
Proof. unfold write_prefix. now intros ->. Qed.

Lemma set_profile_twice fo n d d' : set_profile fo n d = Some d' -> forall f m, set_profile (Some f) m d' = set_profile (Some f) m d.
Proof.
  destruct fo as [f0|]; cbn; [|now intros [= ->]].
  destruct (substring 0 12 (ptype d) =? "power_series")%string eqn:E1.
  - destruct (write_prefix (coef d) (power_fit n f0)) as [a|] eqn:E; [|discriminate]. injection 1 as <-. intros f m. cbn. rewrite E1.
    rewrite (write_prefix_same a (coef d)) by (eapply write_prefix_len; eauto). reflexivity.
  - destruct ((substring 0 12 (ptype d) =? "cubic_spline") || (substring 0 12 (ptype d) =? "akima_spline") || (substring 0 12 (ptype d) =? "line_segment"))%string eqn:E2; [|discriminate].
    destruct (write_prefix (aux_s d) (linspace01 n)) as [a|] eqn:Ea; [|discriminate].
    destruct (write_prefix (aux_f d) (map f0 (linspace01 n))) as [b|] eqn:Eb; [|discriminate]. injection 1 as <-. intros f m. cbn. rewrite E1, E2.
    rewrite (write_prefix_same a (aux_s d)) by (eapply write_prefix_len; eauto).
    rewrite (write_prefix_same b (aux_f d)) by (eapply write_prefix_len; eauto). reflexivity.
Qed.
Lemma set_profile_idem fo n d d' : set_profile fo n d = Some d' -> set_profile fo n d' = Some d'.
Proof. intros H. destruct fo as [f|]; [|now cbn in *]. rewrite (set_profile_twice _ _ _ _ H). exact H. Qed.
Lemma set_profile_type fo n d d' : set_profile fo n d = Some d' -> ptype d' = ptype d.
Proof.
  destruct fo as [f0|]; cbn; [|now intros [= ->]].
  destruct (substring 0 12 (ptype d) =? "power_series")%string.
  - destruct (write_prefix (coef d) (power_fit n f0)); [|discriminate]. now injection 1 as <-.
  - destruct ((substring 0 12 (ptype d) =? "cubic_spline") || (substring 0 12 (ptype d) =? "akima_spline") || (substring 0 12 (ptype d) =? "line_segment"))%string; [|discriminate].
    destruct (write_prefix (aux_s d) (linspace01 n)); [|discriminate].
    destruct (write_prefix (aux_f d) (map f0 (linspace01 n))); [|discriminate]. now injection 1 as <-.
Qed.

(** the loop over modes *)
Lemma transfer_fold get l : forall a j m,
  fold_left (fun a mn => aupd a (101 + snd mn)%Z (fst mn) (get (fst mn) (snd mn))) l a j m =
  if existsb (fun mn => (snd mn =? j - 101)%Z && (fst mn =? m)) l then get m (j - 101)%Z else a j m.
Proof.
  induction l as [|[m0 n0] l IH] using rev_ind; intros a j m; [reflexivity|].
  rewrite fold_left_app. cbn [fold_left fst snd]. unfold aupd at 1. rewrite existsb_app. cbn [existsb fst snd]. rewrite orb_false_r.
  destruct (Z.eqb_spec n0 (j - 101)) as [E|E]; destruct (Z.eqb_spec j (101 + n0)) as [E'|E']; try lia.
  - rewrite (Nat.eqb_sym m0 m). destruct (Nat.eqb_spec m m0) as [->|N]; cbn [andb].
    + rewrite orb_true_r. now rewrite E.
    + rewrite orb_false_r. apply IH.
  - cbn [andb]. rewrite orb_false_r. apply IH.
Qed.

Lemma modes_in mp nt m n : existsb (fun mn => (snd mn =? n)%Z && (fst mn =? m)) (modes mp nt) = (m <=? mp) && (- Z.of_nat nt <=? n)%Z && (n <=? Z.of_nat nt)%Z.
Proof.
  destruct ((m <=? mp) && (- Z.of_nat nt <=? n)%Z && (n <=? Z.of_nat nt)%Z) eqn:E.
  - apply andb_true_iff in E as [E E3]. apply andb_true_iff in E as [E1 E2].
    apply existsb_exists. exists (m, n). split; [|cbn [fst snd]; rewrite Z.eqb_refl, Nat.eqb_refl; reflexivity].
    unfold modes. apply in_flat_map. exists m. split; [apply in_seq; lia|]. apply in_map_iff. exists (Z.to_nat (n + Z.of_nat nt)). split; [f_equal; lia|apply in_seq; lia].
  - destruct (existsb (fun mn => (snd mn =? n)%Z && (fst mn =? m)) (modes mp nt)) eqn:X; auto.
    apply existsb_exists in X as ([m' n'] & I & H). cbn [fst snd] in H.
    apply in_flat_map in I as (m1 & I1 & I2). apply in_map_iff in I2 as (k & I2 & I3). apply in_seq in I1, I3. injection I2 as <- <-. lia.
Qed.

Lemma transfer_spec get mp nt : transfer get (Nat.min mp 101) (Nat.min nt 101) (fun _ _ => 0%R) = boundary_array get mp nt.
Proof.
  apply functional_extensionality; intros j. apply functional_extensionality; intros m.
  unfold transfer, boundary_array. rewrite transfer_fold, modes_in. reflexivity.
Qed.

Lemma set_indata_spec i b np nc ni fp fc fi i' failed : set_indata power_fit quad01 linspace01 i b np nc ni fp fc fi = (i', failed) ->
  inputs i b np nc ni fp fc fi = (if failed then None else Some i').
Proof.
  unfold set_indata, inputs. destruct ((101 <? i_mpol i) || (101 <? i_ntor i)); [now injection 1 as <- <-|].
  cbv zeta. cbn [set_bd set_axis i_m i_c i_i i_bd rbs zbc i_lasym i_mpol i_ntor i_axis i_phiedge i_curtor i_pres i_rest].
  rewrite !transfer_spec.
  destruct (set_profile fp np (i_m i)) as [m|] eqn:Em; [|now injection 1 as <- <-].
  cbn [set_m set_bd set_axis i_m i_c i_i i_bd rbs zbc i_lasym i_mpol i_ntor i_axis i_phiedge i_curtor i_pres i_rest].
  destruct (set_profile fc nc (i_c i)) as [c|] eqn:Ec; [|now injection 1 as <- <-].
  cbn [set_c set_m set_bd set_axis i_m i_c i_i i_bd rbs zbc i_lasym i_mpol i_ntor i_axis i_phiedge i_curtor i_pres i_rest].
  destruct (set_profile fi ni (i_i i)) as [io|] eqn:Ei; [|now injection 1 as <- <-].
  injection 1 as <- <-. f_equal.
  destruct fp as [f1|]; destruct fc as [f2|];
    cbn [set_i set_c set_m set_scal set_bd set_axis i_m i_c i_i i_bd rbs zbc i_lasym i_mpol i_ntor i_axis i_phiedge i_curtor i_pres i_rest];
    try rewrite (set_profile_type _ _ _ _ Ec); try destruct (total_by_integral (ptype (i_c i))); reflexivity.
Qed.

Lemma inputs_stable i b np nc ni fp fc fi i' ax : inputs i b np nc ni fp fc fi = Some i' -> inputs (set_axis i' ax) b np nc ni fp fc fi = Some i'.
Proof.
  unfold inputs. destruct ((101 <? i_mpol i) || (101 <? i_ntor i)) eqn:Z; [discriminate|].
  destruct (set_profile fp np (i_m i)) as [m|] eqn:Em; [|discriminate].
  destruct (set_profile fc nc (i_c i)) as [c|] eqn:Ec; [|discriminate].
  destruct (set_profile fi ni (i_i i)) as [io|] eqn:Ei; [|discriminate]. intros H. injection H as <-.
  cbn [set_axis i_m i_c i_i i_bd rbs zbc i_lasym i_mpol i_ntor i_axis i_phiedge i_curtor i_pres i_rest]. rewrite Z.
  rewrite (set_profile_idem _ _ _ _ Em), (set_profile_idem _ _ _ _ Ec), (set_profile_idem _ _ _ _ Ei).
  rewrite (set_profile_type _ _ _ _ Ec). destruct fp, fc; reflexivity.
Qed.

Lemma node_eqb_eq a b : node_eqb a b = true <-> a = b.
Proof. destruct a, b; cbn; try (split; discriminate); rewrite Nat.eqb_eq; split; intros H; (now subst) || (now injection H). Qed.
Lemma member_in n l : member n l = true <-> In n l.
Proof. unfold member. rewrite existsb_exists. split; [intros (x & I & E); apply node_eqb_eq in E; now subst | intros I; exists n; split; auto; now apply node_eqb_eq]. Qed.
Lemma remove1_in n l l' m : remove1 n l = Some l' -> In m l -> m <> n -> In m l'.
Proof.
  revert l'. induction l as [|a r IH]; cbn; intros l' E I N; [discriminate|].
  destruct (node_eqb a n) eqn:Q.
  - injection E as <-. apply node_eqb_eq in Q. destruct I as [<- |I]; [contradiction|auto].
  - destruct (remove1 n r) as [r'|]; [|discriminate]. injection E as <-. destruct I as [<- |I]; [now left|right; apply IH; auto].
Qed.

(** ** Invariant of the only running object *)
Definition roles_ok (v : vobj) : Prop :=
  In (NSurf (bnd v)) (parents v) /\ (forall p, used v p -> In (NProf p) (parents v)) /\
  (forall p, pp v = Some p -> cp v <> Some p /\ ip v <> Some p) /\ (forall p, cp v = Some p -> ip v <> Some p).

Definition fresh (w : world) (v : vobj) : Prop :=
  need v = false -> exists x, wout v = Some x /\ verdict (inputs_of (ind w) w v) = Out x.

Definition inv (k : nat) (w : world) : Prop :=
  exists v, nth_error (objs w) k = Some v /\ runnable v = true /\ roles_ok v /\ fresh w v /\ bnd v < nsurf w.

Lemma nth_ring n l k : nth_error (ring n l) k = option_map (fun v : vobj => if member n (parents v) then v_need v true else v) (nth_error l k).
Proof. unfold ring. apply nth_error_map. Qed.

Lemma roles_need v b : roles_ok (v_need v b) <-> roles_ok v.
Proof. reflexivity. Qed.

Lemma ring_inv k w w' n : (forall j, nth_error (objs w') j = nth_error (ring n (objs w)) j) -> ind w' = ind w ->
  nsurf w' = nsurf w -> (forall b, n <> NSurf b -> surf w' b = surf w b) -> (forall p, n <> NProf p -> prof w' p = prof w p) -> inv k w -> inv k w'.
Proof.
  intros HO HI HN HS HP (v & E & Rn & Ro & F & Bn). exists (if member n (parents v) then v_need v true else v).
  rewrite HO, nth_ring, E. split; [reflexivity|]. destruct (member n (parents v)) eqn:M.
  - split; [auto|]. split; [auto|]. split; [intros N; discriminate N|now rewrite HN].
  - split; [auto|]. split; [auto|]. split; [|now rewrite HN]. intros N. destruct (F N) as (x & X1 & X2). exists x. split; auto. rewrite <- X2. unfold inputs_of. rewrite HI.
    assert (NM : forall a, In a (parents v) -> n <> a) by (intros a I ->; apply member_in in I; congruence).
    destruct Ro as (R1 & R2 & _).
    rewrite HS by (apply NM, R1).
    assert (Lk : forall q, (forall p, q = Some p -> used v p) -> look w' q = look w q).
    { intros [p|] U; [|reflexivity]. cbn. now rewrite HP by (apply NM, R2, U; reflexivity). }
    rewrite (Lk (pp v)), (Lk (cp v)), (Lk (ip v)); unfold used; auto.
Qed.

Ltac role_tac :=
  let S := fresh in
  unfold set_role;
  match goal with |- (if ?c then _ else _) = _ -> _ => destruct c eqn:S end;
  [injection 1 as <-; now left|].

Lemma remove_parent_some (v v' : vobj) n : remove_parent v n = Some v' ->
  exists l, v' = v_need (v_par v l) true /\ forall m, In m (parents v) -> m <> n -> In m l.
Proof.
  unfold remove_parent. destruct (remove1 n (parents v)) as [l|] eqn:E; [|discriminate]. injection 1 as <-.
  exists l. split; auto. intros m. now apply remove1_in.
Qed.
Lemma append_parent_some (v : vobj) n : exists l b, append_parent v n = v_need (v_par v l) b /\ (forall m, In m (parents v) -> In m l) /\ In n l.
Proof.
  unfold append_parent. destruct (member n (parents v)) eqn:M.
  - exists (parents v), (need v). split; [now destruct v|]. split; auto. now apply member_in.
  - exists (parents v ++ [n]), true. split; auto. split; intros; apply in_app_iff; cbn; auto.
Qed.

Definition kept (v v' : vobj) : Prop := v' = v \/ (need v' = true /\ runnable v' = runnable v /\ roles_ok v' /\ dofs v' = dofs v).

Lemma pressure_kept v p v' : roles_ok v -> (forall a, p = Some a -> cp v <> Some a /\ ip v <> Some a) ->
  set_role pp v_pp v p = Some v' -> kept v v' /\ (pp v' = p) /\ cp v' = cp v /\ ip v' = ip v /\ bnd v' = bnd v.
Proof.
  intros (R1 & R2 & R3 & R4) HP. unfold set_role. cbv zeta.
  destruct (match p, pp v with Some a, Some b => a =? b | None, None => true | _, _ => false end) eqn:S.
  { injection 1 as <-. split; [now left|]. repeat split. destruct p, (pp v); try discriminate; auto. apply Nat.eqb_eq in S. now subst. }
  destruct (match pp v with Some old => remove_parent v (NProf old) | None => Some v end) as [v1|] eqn:Rm; [|discriminate].
  assert (exists l b, v1 = v_need (v_par v l) b /\ (forall m, In m (parents v) -> (forall a, pp v = Some a -> m <> NProf a) -> In m l) /\ (pp v <> None -> b = true)) as (l & b & -> & HL & Hb).
  { destruct (pp v) as [old|].
    - apply remove_parent_some in Rm as (l & -> & HL). exists l, true. repeat split; auto.
    - injection Rm as <-. exists (parents v), (need v). split; [now destruct v|]. split; [auto|congruence]. }
  assert (Q : forall l', (forall m, In m l -> In m l') -> (forall a, p = Some a -> In (NProf a) l') ->
              forall c, roles_ok (v_need (v_par (v_pp (v_need (v_par v l) b) p) l') c)).
  { intros l' H1 H2 c. split; [|split; [|split]]; cbn.
    - apply H1, HL; auto. intros a _; discriminate.
    - intros q [U|[U|U]]; cbn in U; [now apply H2| |]; apply H1, HL; try (apply R2; unfold used; auto);
        intros a A E; injection E as <-; destruct (R3 _ A); contradiction.
    - intros q U. apply HP. exact U.
    - intros q U. now apply R4. }
  destruct p as [a|].
  - destruct (append_parent_some (v_pp (v_need (v_par v l) b) (Some a)) (NProf a)) as (l' & b' & -> & H1 & H2).
    injection 1 as <-. repeat split. right. split; [reflexivity|split; [reflexivity|split; [|reflexivity]]]. change (roles_ok (v_need (v_par (v_pp (v_need (v_par v l) b) (Some a)) l') true)). apply Q; auto. intros a0 [= <-]; auto.
  - injection 1 as <-. repeat split. right. assert (b = true) as -> by (apply Hb; destruct (pp v); congruence).
    split; [reflexivity|split; [reflexivity|split; [|reflexivity]]]. change (roles_ok (v_need (v_par (v_pp (v_need (v_par v l) true) None) l) true)). apply Q; auto. discriminate.
Qed.

Lemma current_kept v p v' : roles_ok v -> (forall a, p = Some a -> pp v <> Some a /\ ip v <> Some a) ->
  set_role cp v_cp v p = Some v' -> kept v v' /\ (cp v' = p) /\ pp v' = pp v /\ ip v' = ip v /\ bnd v' = bnd v.
Proof.
  intros (R1 & R2 & R3 & R4) HP. unfold set_role. cbv zeta.
  destruct (match p, cp v with Some a, Some b => a =? b | None, None => true | _, _ => false end) eqn:S.
  { injection 1 as <-. split; [now left|]. repeat split. destruct p, (cp v); try discriminate; auto. apply Nat.eqb_eq in S. now subst. }
  destruct (match cp v with Some old => remove_parent v (NProf old) | None => Some v end) as [v1|] eqn:Rm; [|discriminate].
  assert (exists l b, v1 = v_need (v_par v l) b /\ (forall m, In m (parents v) -> (forall a, cp v = Some a -> m <> NProf a) -> In m l) /\ (cp v <> None -> b = true)) as (l & b & -> & HL & Hb).
  { destruct (cp v) as [old|].
    - apply remove_parent_some in Rm as (l & -> & HL). exists l, true. repeat split; auto.
    - injection Rm as <-. exists (parents v), (need v). split; [now destruct v|]. split; [auto|congruence]. }
  assert (Q : forall l', (forall m, In m l -> In m l') -> (forall a, p = Some a -> In (NProf a) l') ->
              forall c, roles_ok (v_need (v_par (v_cp (v_need (v_par v l) b) p) l') c)).
  { intros l' H1 H2 c. split; [|split; [|split]]; cbn.
    - apply H1, HL; auto. intros a _; discriminate.
    - intros q [U|[U|U]]; cbn in U; [|now apply H2|]; apply H1, HL; try (apply R2; unfold used; auto).
      + intros a A E; injection E as <-. destruct (R3 _ U); contradiction.
      + intros a A E; injection E as <-. now apply (R4 _ A).
    - intros q U. split; [|now apply R3]. intros E. destruct (HP _ E); contradiction.
    - intros q U. apply HP. exact U. }
  destruct p as [a|].
  - destruct (append_parent_some (v_cp (v_need (v_par v l) b) (Some a)) (NProf a)) as (l' & b' & -> & H1 & H2).
    injection 1 as <-. repeat split. right. split; [reflexivity|split; [reflexivity|split; [|reflexivity]]]. change (roles_ok (v_need (v_par (v_cp (v_need (v_par v l) b) (Some a)) l') true)). apply Q; auto. intros a0 [= <-]; auto.
  - injection 1 as <-. repeat split. right. assert (b = true) as -> by (apply Hb; destruct (cp v); congruence).
    split; [reflexivity|split; [reflexivity|split; [|reflexivity]]]. change (roles_ok (v_need (v_par (v_cp (v_need (v_par v l) true) None) l) true)). apply Q; auto. discriminate.
Qed.

Lemma iota_kept v p v' : roles_ok v -> (forall a, p = Some a -> pp v <> Some a /\ cp v <> Some a) ->
  set_role ip v_ip v p = Some v' -> kept v v' /\ (ip v' = p) /\ pp v' = pp v /\ cp v' = cp v /\ bnd v' = bnd v.
Proof.
  intros (R1 & R2 & R3 & R4) HP. unfold set_role. cbv zeta.
  destruct (match p, ip v with Some a, Some b => a =? b | None, None => true | _, _ => false end) eqn:S.
  { injection 1 as <-. split; [now left|]. repeat split. destruct p, (ip v); try discriminate; auto. apply Nat.eqb_eq in S. now subst. }
  destruct (match ip v with Some old => remove_parent v (NProf old) | None => Some v end) as [v1|] eqn:Rm; [|discriminate].
  assert (exists l b, v1 = v_need (v_par v l) b /\ (forall m, In m (parents v) -> (forall a, ip v = Some a -> m <> NProf a) -> In m l) /\ (ip v <> None -> b = true)) as (l & b & -> & HL & Hb).
  { destruct (ip v) as [old|].
    - apply remove_parent_some in Rm as (l & -> & HL). exists l, true. repeat split; auto.
    - injection Rm as <-. exists (parents v), (need v). split; [now destruct v|]. split; [auto|congruence]. }
  assert (Q : forall l', (forall m, In m l -> In m l') -> (forall a, p = Some a -> In (NProf a) l') ->
              forall c, roles_ok (v_need (v_par (v_ip (v_need (v_par v l) b) p) l') c)).
  { intros l' H1 H2 c. split; [|split; [|split]]; cbn.
    - apply H1, HL; auto. intros a _; discriminate.
    - intros q [U|[U|U]]; cbn in U; [| |now apply H2]; apply H1, HL; try (apply R2; unfold used; auto).
      + intros a A E; injection E as <-. destruct (R3 _ U); contradiction.
      + intros a A E; injection E as <-. now apply (R4 _ U).
    - intros q U. split; [now apply R3|]. intros E. destruct (HP _ E); contradiction.
    - intros q U E. destruct (HP _ E); contradiction. }
  destruct p as [a|].
  - destruct (append_parent_some (v_ip (v_need (v_par v l) b) (Some a)) (NProf a)) as (l' & b' & -> & H1 & H2).
    injection 1 as <-. repeat split. right. split; [reflexivity|split; [reflexivity|split; [|reflexivity]]]. change (roles_ok (v_need (v_par (v_ip (v_need (v_par v l) b) (Some a)) l') true)). apply Q; auto. intros a0 [= <-]; auto.
  - injection 1 as <-. repeat split. right. assert (b = true) as -> by (apply Hb; destruct (ip v); congruence).
    split; [reflexivity|split; [reflexivity|split; [|reflexivity]]]. change (roles_ok (v_need (v_par (v_ip (v_need (v_par v l) true) None) l) true)). apply Q; auto. discriminate.
Qed.

Lemma boundary_kept v b v' : roles_ok v -> set_boundary v b = Some v' -> kept v v' /\ bnd v' = b /\ pp v' = pp v /\ cp v' = cp v /\ ip v' = ip v.
Proof.
  intros (R1 & R2 & R3 & R4). unfold set_boundary. destruct (Nat.eqb_spec b (bnd v)) as [->|N].
  - injection 1 as <-. split; [now left|]. now repeat split.
  - destruct (remove_parent v (NSurf (bnd v))) as [v1|] eqn:Rm; [|discriminate].
    apply remove_parent_some in Rm as (l & -> & HL).
    destruct (append_parent_some (v_bnd (v_need (v_par v l) true) b) (NSurf b)) as (l' & b' & -> & H1 & H2).
    injection 1 as <-. repeat split. right. split; [reflexivity|split; [reflexivity|split; [|reflexivity]]]. split; [|split; [|split]]; cbn; auto.
    intros p U. apply H1, HL; [apply R2; exact U|discriminate].
Qed.

(** ** One step *)
Lemma kept_inv k w v v' : nth_error (objs w) k = Some v -> runnable v = true -> roles_ok v -> fresh w v -> kept v v' -> bnd v' < nsurf w -> inv k (put w k v').
Proof.
  intros E Rn Ro F K Bn. assert (k < List.length (objs w)) by (apply nth_error_Some; congruence).
  exists v'. rewrite nth_put, Nat.eqb_refl by auto. split; auto. destruct K as [-> | (N & A & B & _)]; auto.
  split; [congruence|]. split; [auto|]. split; [|auto]. intros N'. congruence.
Qed.

Lemma other_inv k j w v' : j <> k -> j < List.length (objs w) -> inv k w -> inv k (put w j v').
Proof.
  intros N L (v & E & H). exists v. rewrite nth_put by auto. destruct (Nat.eqb_spec k j); [congruence|]. auto.
Qed.

Lemma access_inv k w v w' r : nth_error (objs w) k = Some v -> runnable v = true -> roles_ok v -> fresh w v -> bnd v < nsurf w ->
  access solver ier_flag power_fit quad01 linspace01 w k v = (w', r) ->
  inv k w' /\ r = verdict (inputs_of (ind w) w v).
Proof.
  intros E Rn Ro F Bn. assert (L : k < List.length (objs w)) by (apply nth_error_Some; congruence).
  unfold access. destruct (need v) eqn:N; cbn [negb].
  - rewrite Rn. cbn [negb]. cbn [v_iter bnd n_p n_c n_i pp cp ip].
    destruct (set_indata power_fit quad01 linspace01 (ind w) (surf w (bnd v)) (n_p v) (n_c v) (n_i v) (look w (pp v)) (look w (cp v)) (look w (ip v))) as [i failed] eqn:SI.
    apply set_indata_spec in SI. fold (inputs_of (ind w) w v) in SI. rewrite SI.
    assert (B : forall i' v', runnable v' = true -> roles_ok v' -> bnd v' = bnd v -> need v' = true -> inv k (put (put_ind w i') k v')).
    { intros i' v' A1 A2 A4 A3. exists v'. rewrite nth_put, Nat.eqb_refl by auto. split; [auto|]. split; [auto|]. split; [auto|]. split; [intros Q; congruence|rewrite A4; auto]. }
    destruct failed.
    { injection 1 as <- <-. split; [apply B; auto|auto]. }
    destruct (solver i) as [[ierr x] ax] eqn:So. cbn [verdict]. rewrite So.
    destruct ((ierr =? 0) || (ierr =? 5))%Z eqn:Bad.
    { injection 1 as <- <-. split; [apply B; auto|]. destruct (Z.eqb_spec ierr 11); auto. subst; discriminate. }
    destruct (ierr =? 11)%Z eqn:E11; cbn [negb andb].
    2: { injection 1 as <- <-. split; [apply B; auto|auto]. }
    destruct (ier_flag x =? 0)%Z eqn:Fl; cbn [negb].
    2: { injection 1 as <- <-. split; [apply B; auto|auto]. }
    injection 1 as <- <-. split; auto. eexists. rewrite nth_put, Nat.eqb_refl by auto. split; [reflexivity|]. split; [auto|]. split; [auto|]. split; [|exact Bn].
    intros _. exists x. split; auto. unfold inputs_of.
    cbn [v_need v_wout v_iter bnd n_p n_c n_i pp cp ip put put_ind ind surf].
    change (look (put (put_ind w (set_axis i ax)) k (v_need (v_wout (v_iter v (iter v + 1)%Z) (Some x)) false))) with (look w).
    fold (inputs_of (set_axis i ax) w v). unfold inputs_of in SI |- *. rewrite (inputs_stable _ _ _ _ _ _ _ _ _ ax SI).
    cbn [verdict]. rewrite So, Fl, E11. reflexivity.
  - destruct (F N) as (x & X1 & X2). rewrite X1. injection 1 as <- <-. split; [|now rewrite X2]. exists v. auto.
Qed.

Lemma step_inv k w o : inv k w -> respects k w o -> inv k (fst (step w o)).
Proof.
  intros I Rs. pose proof I as (v & E & Rn & Ro & F & Bn).
  assert (L : k < List.length (objs w)) by (apply nth_error_Some; congruence).
  assert (SET : forall j f, (j = k -> forall v', f v = Some v' -> kept v v' /\ bnd v' < nsurf w) -> inv k (fst (on_setter w j f))).
  { intros j f H. unfold on_setter, on. destruct (nth_error (objs w) j) as [vj|] eqn:Ej; [|exact I].
    destruct (f vj) as [v'|] eqn:Fj; [|exact I]. cbn [fst].
    destruct (Nat.eq_dec j k) as [->|N].
    - rewrite E in Ej. injection Ej as <-. destruct (H eq_refl _ Fj). eapply kept_inv; eauto.
    - apply other_inv; auto. apply nth_error_Some; congruence. }
  assert (NEW : forall b l, inv k (mkW (ind w) (S (nsurf w)) (fupd (surf w) (nsurf w) b) (prof w) (objs w ++ l))).
  { intros b l. exists v. cbn [objs]. rewrite nth_error_app1 by auto. split; [auto|]. split; [auto|]. split; [auto|]. split; [|cbn; lia].
    intros N. destruct (F N) as (x & X1 & X2). exists x. split; auto. rewrite <- X2. unfold inputs_of. cbn [ind surf].
    unfold fupd. destruct (Nat.eqb_spec (bnd v) (nsurf w)); [lia|]. reflexivity. }
  destruct o as [file|x b|b|b s|p f|j d|j b|j p|j p|j p|f|j|j]; cbn [step respects] in *.
  - destruct Rs.
  - apply NEW.
  - cbn [fst]. rewrite <- (app_nil_r (objs w)). apply NEW.
  - apply (ring_inv k w _ (NSurf b)); auto. intros b' N. cbn. unfold fupd. destruct (Nat.eqb_spec b' b); congruence.
  - apply (ring_inv k w _ (NProf p)); auto. intros b' N. cbn. unfold fupd. destruct (Nat.eqb_spec b' p); congruence.
  - unfold on. destruct (nth_error (objs w) j) as [vj|] eqn:Ej; [|exact I]. cbn [fst].
    destruct Rs as [-> | Rs].
    + rewrite E in Ej. injection Ej as <-. rewrite Rn. exists (v_need (v_dofs v d) true).
      change (objs (put_ind (put w k (v_need (v_dofs v d) true)) (set_scal (ind (put w k (v_need (v_dofs v d) true))) (fst (fst d)) (snd (fst d)) (snd d)))) with (objs (put w k (v_need (v_dofs v d) true))).
      rewrite nth_put, Nat.eqb_refl by auto. split; [auto|]. split; [auto|]. split; [auto|]. split; [intros N; discriminate N|exact Bn].
    + rewrite (Rs _ Ej). apply other_inv; auto; [|apply nth_error_Some; congruence].
      intros ->. rewrite E in Ej. injection Ej as <-. rewrite (Rs _ E) in Rn. discriminate.
  - apply SET. intros -> v' H. apply boundary_kept in H as (K & -> & _); auto.
  - apply SET. intros -> v' H. apply pressure_kept in H as (K & _ & _ & _ & ->); auto. intros a ->. now apply Rs.
  - apply SET. intros -> v' H. apply current_kept in H as (K & _ & _ & _ & ->); auto. intros a ->. now apply Rs.
  - apply SET. intros -> v' H. apply iota_kept in H as (K & _ & _ & _ & ->); auto. intros a ->. now apply Rs.
  - exists v. split; [exact E|]. split; [auto|]. split; [auto|]. split; [|exact Bn]. intros N. rewrite (Rs _ E) in N. discriminate.
  - unfold on. destruct (nth_error (objs w) j) as [vj|] eqn:Ej; [|exact I]. cbn [fst].
    destruct (Nat.eq_dec j k) as [->|N].
    + rewrite E in Ej. injection Ej as <-. refine (kept_inv k w v (v_need v true) E Rn Ro F _ Bn). right. split; [reflexivity|split; [reflexivity|split; [exact Ro|reflexivity]]].
    + apply other_inv; auto. apply nth_error_Some; congruence.
  - unfold on. destruct (nth_error (objs w) j) as [vj|] eqn:Ej; [|exact I].
    destruct Rs as [-> | Rs].
    + rewrite E in Ej. injection Ej as <-. destruct (access solver ier_flag power_fit quad01 linspace01 w k v) as [w' r] eqn:A.
      cbn [fst]. eapply access_inv; eauto.
    + unfold access. rewrite (Rs _ Ej). destruct (need vj); exact I.
Qed.

Lemma run_inv k h : forall w, inv k w -> all_steps (respects k) w h -> inv k (run w h).
Proof.
  induction h as [|o r IH]; intros w I A; [exact I|]. destruct A as [A1 A2]. cbn [VmecModel.run]. apply IH; auto. now apply step_inv.
Qed.

Lemma new_inv w file : inv (List.length (objs w)) (fst (step w (NewInput file))).
Proof.
  eexists. cbn [step fst objs]. rewrite nth_error_app2, Nat.sub_diag by lia. split; [reflexivity|]. split; [reflexivity|]. split; [|split; [|cbn; lia]].
  - split; [now left|]. split; [intros p [U|[U|U]]; discriminate U|]. split; intros p U; discriminate U.
  - intros N; discriminate N.
Qed.

(** * C98 *)
(** Whatever happened since it was created -- dof changes of the boundary, of the profiles and of its own,
    replaced boundaries and profiles, failed runs, earlier results, wout-file objects beside it -- an
    accessor gives what VMEC gives for the present inputs: a value exactly when VMEC converges on them *)
Theorem C98_accessors_are_current : forall w0 file h, let k := List.length (objs w0) in let w1 := fst (step w0 (NewInput file)) in
  all_steps (respects k) w1 h ->
  exists v, nth_error (objs (run w1 h)) k = Some v /\
    snd (step (run w1 h) (Access k)) = verdict (inputs_of (ind (run w1 h)) (run w1 h) v).
Proof.
  intros w0 file h k w1 A. destruct (run_inv k h w1 (new_inv w0 file) A) as (v & E & Rn & Ro & F & Bn). exists v. split; auto.
  cbn [step]. unfold on. rewrite E. destruct (access solver ier_flag power_fit quad01 linspace01 (run w1 h) k v) as [w' r] eqn:Ac.
  cbn [snd]. eapply access_inv; eauto.
Qed.
End Spec.
