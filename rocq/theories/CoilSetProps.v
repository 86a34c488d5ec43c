(** C123: CoilSet: what its penalties depend on, and what replacing the coils or the surface leaves behind. *)
From Coq Require Import Reals Lra Permutation.
From Verif Require CoilProps.
From Verif Require Import ListAux VecAux DofsModel DofsSpec GraphModel GraphInv GraphSpec GraphPres GraphPres2 GraphPres3 GraphFacts GraphFacts2 GraphProps CoilSetModel.
Open Scope nat_scope.

(** every second element of a list *)
Fixpoint every_second {A} (l : list A) : list A := match l with _ :: b :: r => b :: every_second r | _ => [] end.
Section Own.
Context {V : Type}.
Notation st := (@st V).
Variables (ord : list nat -> list nat) (fuel : nat).
Hypothesis Hord : any_order ord.
Lemma par_lt (s : st) a p : reachable s -> a < nobj s -> In p (par s a) -> p < nobj s.
Proof. intros R Ha H. apply reachable_inv in R. exact (gi_par s (inv_g s R) a p Ha H). Qed.
Lemma detach_spec_n : forall n l (s : st) t pre steps, length l <= n -> reachable s -> t < nobj s -> nobj s <= fuel -> par s t = pre ++ l -> length l <= steps ->
  exists s', detach ord fuel steps (length pre) s t = Some (s', None) /\ par s' t = pre ++ every_second l /\ (forall b, b <> t -> par s' b = par s b) /\ cel s' = cel s /\ dof_of s' = dof_of s /\ nobj s' = nobj s /\ reachable s'.
Proof.
  induction n as [|n IH]; intros l s t pre steps LN R Ht Hf E L; (destruct l as [|p l]; [|cbn [length] in LN; try lia]).
  - exists s. rewrite app_nil_r in E. split; [|cbn; rewrite app_nil_r; repeat split; auto]. destruct steps; [reflexivity|]. cbn [detach]. now rewrite E, (proj2 (nth_error_None _ _)) by lia.
  - exists s. rewrite app_nil_r in E. split; [|cbn; rewrite app_nil_r; repeat split; auto]. destruct steps; [reflexivity|]. cbn [detach]. now rewrite E, (proj2 (nth_error_None _ _)) by lia.
  - destruct steps as [|steps]; [cbn in L; lia|]. cbn [detach]. rewrite E, nth_error_app2, Nat.sub_diag by lia. cbn [nth_error].
    destruct (C09_remove_parent ord fuel Hord s t pre p l R Ht Hf E) as (s1 & E1 & P1 & O1 & C1 & D1). rewrite E1. cbn [bindr].
    assert (VO : valid_op s (GRemoveParent t p)) by (split; [exact Ht|]; apply (par_lt s t); auto; rewrite E; apply in_elt).
    assert (R1 : reachable s1) by (eapply (reach_step s s1 ord fuel (GRemoveParent t p) None R VO Hord); exact E1).
    assert (N1 : nobj s1 = nobj s). { apply remove_parent_step in E1; [apply E1|exact Hord|apply reachable_inv, R|exact Ht|apply VO]. }
    destruct l as [|q l].
    + exists s1. cbn [every_second]. split; [|repeat split; auto]. rewrite app_nil_r in P1. destruct steps; [reflexivity|]. cbn [detach]. rewrite P1, (proj2 (nth_error_None _ _)) by lia. reflexivity.
    + assert (P2 : par s1 t = (pre ++ [q]) ++ l) by (rewrite P1, <- app_assoc; reflexivity).
      cbn [length] in LN. destruct (IH l s1 t (pre ++ [q]) steps ltac:(lia) R1 ltac:(lia) ltac:(lia) P2 ltac:(cbn [length] in L; lia)) as (s' & E' & P' & O' & C' & D' & N' & R'). exists s'. rewrite app_length in E'. cbn [length] in E'. rewrite Nat.add_1_r in E'. split; [exact E'|].
      split; [rewrite P', <- app_assoc; reflexivity|]. split; [intros b B; rewrite O', O1 by exact B; reflexivity|]. repeat split; congruence || auto.
Qed.
Lemma detach_spec l (s : st) t pre steps : reachable s -> t < nobj s -> nobj s <= fuel -> par s t = pre ++ l -> length l <= steps ->
  exists s', detach ord fuel steps (length pre) s t = Some (s', None) /\ par s' t = pre ++ every_second l /\ (forall b, b <> t -> par s' b = par s b) /\ cel s' = cel s /\ dof_of s' = dof_of s /\ nobj s' = nobj s /\ reachable s'.
Proof. now apply (detach_spec_n (length l)). Qed.
Lemma every_second_In {A} : forall (l : list A) x, In x (every_second l) -> In x l.
Proof.
  intros l x. assert (G : forall n (l : list A), length l <= n -> In x (every_second l) -> In x l).
  { induction n as [|n IH]; intros [|a [|b l']] L H; cbn [length] in L; try lia; try contradiction. destruct H as [->|H]; [right; now left|right; right]. apply IH; [lia|exact H]. }
  apply (G (length l)). lia.
Qed.
Lemma Anc_mono (s s' : st) : (forall a p, In p (par s' a) -> In p (par s a)) -> forall o a, Anc s' o a -> Anc s o a.
Proof. intros H o a A. induction A as [p a P|o p a P A IH]; [apply anc_par; auto|]. eapply anc_step; [apply H, P|exact IH]. Qed.
(** The penalty [t] ends up with the set [c] as last parent, but keeps every second of the parents it was built with, and everything they depend
    on; nothing else changes *)
Theorem C123_penalty_parents (s : st) (t c : nat) : reachable s -> t < nobj s -> c < nobj s -> nobj s <= fuel -> c <> t -> ~ Anc s t c -> ~ In c (par s t) ->
  exists s', own_penalty ord fuel s t c = Some (s', None) /\ par s' t = every_second (par s t) ++ [c] /\ (forall b, b <> t -> par s' b = par s b) /\ cel s' = cel s /\ dof_of s' = dof_of s /\
  forall o, In o (ancestors s' t) <-> o = c \/ Anc s' o c \/ exists p, In p (every_second (par s t)) /\ (o = p \/ Anc s' o p).
Proof.
  intros R Ht Hc Hf NE NA NC. unfold own_penalty. destruct (detach_spec (par s t) s t [] (length (par s t)) R Ht Hf eq_refl ltac:(lia)) as (s1 & E1 & P1 & O1 & C1 & D1 & N1 & R1). cbn [length] in E1. rewrite E1. cbn [bindr]. cbn [app] in P1.
  assert (SUB : forall a p, In p (par s1 a) -> In p (par s a)) by (intros a p H; destruct (Nat.eq_dec a t) as [->|Q]; [rewrite P1 in H; now apply every_second_In|now rewrite O1 in H]).
  assert (NC1 : ~ In c (par s1 t)) by (intros H; apply NC, SUB, H).
  destruct (C09_add_parent ord fuel Hord s1 t (Z.of_nat (length (par s1 t))) c R1 ltac:(lia) ltac:(lia) NE ltac:(intros A; apply NA; exact (Anc_mono s s1 SUB _ _ A)) ltac:(lia)) as (s' & E' & O' & H').
  exists s'. unfold append_parent. split; [exact E'|]. destruct H' as [(Q & _)|(_ & (l1 & l2 & EL & EP & LP & _) & C' & D' & _)]; [contradiction|].
  assert (L1 : l2 = []). { specialize (LP ltac:(lia)). rewrite Nat2Z.id, Nat.min_id, EL, app_length in LP. destruct l2; [reflexivity|cbn in LP; lia]. } subst l2. rewrite app_nil_r in EL.
  assert (PT : par s' t = every_second (par s t) ++ [c]) by (rewrite EP, <- EL, P1; reflexivity). split; [exact PT|]. split; [intros b B; rewrite O', O1 by exact B; reflexivity|]. split; [congruence|]. split; [congruence|].
  assert (VO : valid_op s1 (GAppendParent t c)) by (split; lia). assert (R' : reachable s') by (eapply (reach_step s1 s' ord fuel (GAppendParent t c) None R1 VO Hord); exact E').
  assert (T' : t < nobj s'). { assert (NB : nobj s' = nobj s1) by (apply add_parent_step in E'; [apply E'|exact Hord|apply reachable_inv, R1|lia|lia]). lia. }
  intros o. destruct (C09_ancestors_are_the_closure s' t R' T') as (AC & _). rewrite AC. split.
  - intros A. inversion A as [p a P|o' p a P A']; subst; rewrite PT in P; apply in_app_or in P as [P|[<-|[]]].
    + right. right. exists o. auto.
    + now left.
    + right. right. exists p. auto.
    + right. now left.
  - intros [->|[A|(p & P & [->|A])]].
    + apply anc_par. rewrite PT. apply in_elt.
    + eapply anc_step; [|exact A]. rewrite PT. apply in_elt.
    + apply anc_par. rewrite PT. apply in_or_app. now left.
    + eapply anc_step; [|exact A]. rewrite PT. apply in_or_app. now left.
Qed.
(** with one parent the penalty depends on the set alone; of the sum of two objectives (of N curves: the sum of all but the last, and the last)
    the last one stays a parent: its curve stays among the objects whose dofs the penalty has, also when the set is a ReducedCoilSet *)
Theorem C123_single_parent (s : st) (t c p : nat) : reachable s -> t < nobj s -> c < nobj s -> nobj s <= fuel -> c <> t -> ~ Anc s t c -> par s t = [p] -> c <> p ->
  exists s', own_penalty ord fuel s t c = Some (s', None) /\ par s' t = [c] /\ forall o, In o (ancestors s' t) <-> o = c \/ Anc s' o c.
Proof.
  intros R Ht Hc Hf NE NA E NP. destruct (C123_penalty_parents s t c R Ht Hc Hf NE NA) as (s' & E' & P' & _ & _ & _ & A'); [rewrite E; intros [Q|[]]; now apply NP|]. exists s'. split; [exact E'|]. rewrite E in P', A'. cbn [every_second app] in P', A'. split; [exact P'|].
  intros o. rewrite A'. split; [intros [H|[H|(q & [] & _)]]; auto|intros [H|H]; auto].
Qed.
Theorem C123_sum_refuted (s : st) (t c p q crv : nat) : reachable s -> t < nobj s -> c < nobj s -> nobj s <= fuel -> c <> t -> ~ Anc s t c -> par s t = [p; q] -> c <> p -> c <> q -> In crv (par s q) -> ~ Anc s crv c ->
  exists s', own_penalty ord fuel s t c = Some (s', None) /\ par s' t = [q; c] /\ In crv (ancestors s' t) /\ (par s c = [] -> q <> t -> exists o, In o (ancestors s' t) /\ o <> c /\ ~ Anc s' o c).
Proof.
  intros R Ht Hc Hf NE NA E NP NQ HQ NB. destruct (C123_penalty_parents s t c R Ht Hc Hf NE NA) as (s' & E' & P' & O' & _ & _ & A'); [rewrite E; intros [Q|[Q|[]]]; congruence|]. exists s'. split; [exact E'|]. rewrite E in P', A'. cbn [every_second app] in P', A'. split; [exact P'|].
  assert (QT : q <> t). { intros ->. apply reachable_inv in R. apply (anc_irrefl s (inv_g _ R) (inv_ac _ R) t Ht). apply anc_par. rewrite E. right. now left. }
  assert (IC : In crv (ancestors s' t)). { apply A'. right. right. exists q. split; [now left|right]. apply anc_par. now rewrite O' by exact QT. }
  split; [exact IC|]. intros PC _. exists q. split; [apply A'; right; right; exists q; split; [now left|now left]|]. split; [congruence|]. intros A. inversion A as [x a P|x y a P _]; subst; rewrite O', PC in P by exact NE; destruct P.
Qed.
End Own.

(** ** The attributes *)
Lemma copies_length nfp ss : length (copies nfp ss) = nfp * (if ss then 2 else 1).
Proof. unfold copies. rewrite (CoilProps.flat_map_len _ _ (if ss then 2 else 1)); [rewrite seq_length; lia|]. intros k. rewrite map_length. now destruct ss. Qed.
Lemma via_length b nfp ss : length (via_symmetries b nfp ss) = length b * (nfp * (if ss then 2 else 1)).
Proof. unfold via_symmetries. rewrite (CoilProps.flat_map_len _ _ (length b)); [rewrite copies_length; lia|]. intros; apply map_length. Qed.
Lemma via_sum (len : nat -> R) b nfp ss : rsuml (map (fun c => len (fst c)) (via_symmetries b nfp ss)) = (INR (nfp * (if ss then 2 else 1)) * rsuml (map len b))%R.
Proof.
  rewrite <- copies_length with (ss := ss). unfold via_symmetries. induction (copies nfp ss) as [|c l IH]; [cbn; ring|]. cbn [flat_map length]. rewrite map_app, rsuml_app, IH, map_map, S_INR. cbn [fst]. change (map (fun x => len x) b) with (map len b). ring.
Qed.
(** A CoilSet built from base coils consists of all symmetric copies of them, its field is that of its coils on its surface, and total_length is
    the sum of the lengths of all its coils *)
Theorem C123_new (b : list nat) (sf nfp : nat) (ss : bool) (len : nat -> R) : let s := cs_new b None sf nfp ss in
  base s = b /\ coils s = via_symmetries b nfp ss /\ bs s = coils s /\ pts s = surf s /\ length (coils s) = length b * (nfp * (if ss then 2 else 1)) /\
  (b <> [] -> total_length len s = rsuml (map (fun c => len (fst c)) (coils s))).
Proof.
  cbv zeta. unfold cs_new. cbn [base coils bs pts surf]. repeat (split; [reflexivity|]). split; [apply via_length|]. intros NB. unfold total_length. cbn [base coils]. rewrite via_sum, via_length, mult_INR. assert (INR (length b) <> 0%R) by (apply not_0_INR; destruct b; [congruence|cbn; lia]). field. assumption.
Qed.
(** Assigning base_coils replaces the base coils and the field but not the attribute coils: the coil-to-coil and coil-to-surface distances,
    to_makegrid_file and plots are still those of the old coils, and total_length is wrong unless the number of base coils is the same *)
Theorem C123_set_base_refuted (b b' : list nat) (sf nfp : nat) (ss : bool) (len : nat -> R) : let s := cs_set_base (cs_new b None sf nfp ss) b' in
  base s = b' /\ bs s = via_symmetries b' nfp ss /\ coils s = via_symmetries b nfp ss /\
  (b' <> [] -> total_length len s * INR (length b') = INR (length b) * rsuml (map (fun c => len (fst c)) (bs s)))%R.
Proof.
  cbv zeta. unfold cs_set_base, cs_new. cbn [base coils bs snfp sss]. repeat (split; [reflexivity|]). intros NB. unfold total_length. cbn [base coils]. rewrite via_sum, via_length, mult_INR. assert (INR (length b') <> 0%R) by (apply not_0_INR; destruct b'; [congruence|cbn; lia]). field. assumption.
Qed.
(** Assigning a surface of another number of field periods raises; of another symmetry it is accepted, with the coils unchanged *)
Theorem C123_set_surface (s : cset) (sf nfp : nat) (ss : bool) : (nfp <> snfp s -> cs_set_surface s sf nfp ss = None) /\
  (nfp = snfp s -> exists s', cs_set_surface s sf nfp ss = Some s' /\ coils s' = coils s /\ bs s' = bs s /\ base s' = base s /\ pts s' = sf /\ surf s' = sf).
Proof.
  unfold cs_set_surface. split; intros H; [now rewrite (proj2 (Nat.eqb_neq _ _) H)|]. rewrite (proj2 (Nat.eqb_eq _ _) H). cbn [negb]. eexists. repeat split.
Qed.
Example C123_ex : let s := cs_set_base (cs_new [0; 1] None 0 2 true) [7] in length (coils s) = 8 /\ length (bs s) = 4 /\ total_length (fun _ => 1%R) s = 8%R /\ every_second [4; 5; 6] = [5].
Proof. cbv zeta. split; [reflexivity|]. split; [reflexivity|]. split; [|reflexivity]. unfold total_length. cbn. lra. Qed.
