(** C98 continued: the result depends on the input file and the current dofs, boundary and profiles
    only; and the exact effect of removed profiles, asymmetric boundaries, several Vmec objects, shared
    profiles, assignments to indata and wout-file objects. *)
From Coq Require Import Reals List ZArith Lia String Bool FunctionalExtensionality.
Import ListNotations.
From Verif Require Import ListAux VmecModel VmecProps.
Open Scope nat_scope.

Section Thms.
Context {Rest W : Type}.
Variable solver : @indata Rest -> Z * W * axis.
Variable ier_flag : W -> Z.
Variable power_fit : nat -> (R -> R) -> list R.
Variable quad01 : (R -> R) -> R.
Variable linspace01 : nat -> list R.
Notation indata := (@indata Rest).
Notation vobj := (@vobj W).
Notation world := (@world Rest W).
Notation op := (@op Rest W).
Notation outcome := (@outcome W).
Notation set_profile := (set_profile power_fit linspace01).
Notation set_indata := (set_indata power_fit quad01 linspace01).
Notation step := (step solver ier_flag power_fit quad01 linspace01).
Notation run := (run solver ier_flag power_fit quad01 linspace01).
Notation access := (access solver ier_flag power_fit quad01 linspace01).
Notation inputs := (inputs power_fit quad01 linspace01).
Notation inputs_of := (inputs_of power_fit quad01 linspace01).
Notation verdict := (verdict solver ier_flag).
Notation inv := (inv solver ier_flag power_fit quad01 linspace01).
Notation all_steps := (all_steps solver ier_flag power_fit quad01 linspace01).

Definition equiv (d e : pdata) : Prop := ptype d = ptype e /\ forall f n, set_profile (Some f) n d = set_profile (Some f) n e.

Definition like {A : Type} (fp fc fi : option A) (file : indata) (d : R * R * R) (i : indata) : Prop :=
  (i_lasym i = i_lasym file /\ i_mpol i = i_mpol file /\ i_ntor i = i_ntor file /\ rbs (i_bd i) = rbs (i_bd file) /\ zbc (i_bd i) = zbc (i_bd file) /\
   i_rest i = i_rest file /\ i_phiedge i = fst (fst d)) /\
  (equiv (i_m i) (i_m file) /\ (fp = None -> i_m i = i_m file /\ i_pres i = snd d)) /\
  (equiv (i_c i) (i_c file) /\ (fc = None -> i_c i = i_c file /\ i_curtor i = snd (fst d))) /\
  (equiv (i_i i) (i_i file) /\ (fi = None -> i_i i = i_i file)).

Lemma equiv_refl d : equiv d d. Proof. split; auto. Qed.
Lemma equiv_trans a b c : equiv a b -> equiv b c -> equiv a c.
Proof. intros [A B] [C E]. split; [congruence|]. intros; now rewrite B, E. Qed.
Lemma equiv_set fo n d d' : set_profile fo n d = Some d' -> equiv d' d.
Proof. intros H. split; [eapply set_profile_type; eauto|]. intros. eapply set_profile_twice; eauto. Qed.

Lemma like_inputs fp fc fi file d i b np nc ni : like fp fc fi file d i ->
  inputs i b np nc ni fp fc fi = inputs (set_scal file (fst (fst d)) (snd (fst d)) (snd d)) b np nc ni fp fc fi.
Proof.
  intros ((A1 & A2 & A3 & A4 & A5 & A6 & A7) & (M1 & M2) & (C1 & C2) & (I1 & I2)). unfold VmecProps.inputs.
  cbn [set_scal i_m i_c i_i i_bd rbs zbc i_lasym i_mpol i_ntor i_axis i_phiedge i_curtor i_pres i_rest].
  rewrite A1, A2, A3, A4, A5, A6, A7.
  assert (X : forall (fo : option (R -> R)) n a e, equiv a e -> (fo = None -> a = e) -> set_profile fo n a = set_profile fo n e).
  { intros [f|] n a e [_ H1] H2; [apply H1|]. now rewrite H2. }
  rewrite (X fp np (i_m i) (i_m file)), (X fc nc (i_c i) (i_c file)), (X fi ni (i_i i) (i_i file)); auto; try (intros; now apply M2); try (intros; now apply C2).
  destruct C1 as [-> _].
  destruct fp as [f1|]; [|rewrite (proj2 (M2 eq_refl))]; (destruct fc as [f2|]; [|rewrite (proj2 (C2 eq_refl))]); reflexivity.
Qed.

Lemma set_indata_like fp fc fi file d i b np nc ni i' failed : like fp fc fi file d i -> set_indata i b np nc ni fp fc fi = (i', failed) -> like fp fc fi file d i'.
Proof.
  intros L. unfold VmecModel.set_indata. destruct ((101 <? i_mpol i) || (101 <? i_ntor i)); [injection 1 as <- <-; exact L|].
  destruct L as ((A1 & A2 & A3 & A4 & A5 & A6 & A7) & (M1 & M2) & (C1 & C2) & (I1 & I2)).
  cbv zeta. cbn [set_bd set_axis i_m i_c i_i i_bd rbs zbc i_lasym i_mpol i_ntor i_axis i_phiedge i_curtor i_pres i_rest].
  assert (X : forall (fo : option (R -> R)) n a a' e, set_profile fo n a = Some a' -> equiv a e -> (fo = None -> a = e) -> equiv a' e /\ (fo = None -> a' = e)).
  { intros fo n a a' e E H1 H2. split; [eapply equiv_trans; [eapply equiv_set; eauto|auto]|]. intros ->. cbn in E. injection E as <-. auto. }
  destruct (set_profile fp np (i_m i)) as [m|] eqn:Em; [|injection 1 as <- <-; repeat split; cbn; auto; try apply M1; try apply C1; try apply I1; try apply M2; try apply C2; auto].
  destruct (X _ _ _ _ _ Em M1 (fun z => proj1 (M2 z))) as [M1' M2']. clear M1.
  cbn [set_m set_bd set_axis i_m i_c i_i i_bd rbs zbc i_lasym i_mpol i_ntor i_axis i_phiedge i_curtor i_pres i_rest].
  destruct (set_profile fc nc (i_c i)) as [c|] eqn:Ec; [|injection 1 as <- <-; repeat split; cbn; auto; try apply M1'; try apply C1; try apply I1; try apply M2; try apply C2; auto].
  destruct (X _ _ _ _ _ Ec C1 (fun z => proj1 (C2 z))) as [C1' C2']. clear C1.
  cbn [set_c set_m set_bd set_axis i_m i_c i_i i_bd rbs zbc i_lasym i_mpol i_ntor i_axis i_phiedge i_curtor i_pres i_rest].
  destruct (set_profile fi ni (i_i i)) as [io|] eqn:Ei; [|injection 1 as <- <-; repeat split; cbn; auto; try apply M1'; try apply C1'; try apply I1; try apply M2; try apply C2; auto].
  destruct (X _ _ _ _ _ Ei I1 I2) as [I1' I2']. clear I1.
  injection 1 as <- <-.
  destruct fp as [f1|]; destruct fc as [f2|];
    cbn [set_i set_c set_m set_scal set_bd set_axis i_m i_c i_i i_bd rbs zbc i_lasym i_mpol i_ntor i_axis i_phiedge i_curtor i_pres i_rest];
    try destruct (total_by_integral (ptype c)); (split; [cbn; repeat split; auto|]);
    (split; [split; [exact M1'|first [discriminate | intros z; split; [now apply M2'|now apply M2]]]|]);
    (split; [split; [exact C1'|first [discriminate | intros z; split; [now apply C2'|now apply C2]]]|]); split; auto.
Qed.

Definition tracks (file : indata) (k : nat) (w : world) : Prop :=
  forall v, nth_error (objs w) k = Some v -> like (pp v) (cp v) (ip v) file (dofs v) (ind w).

Lemma like_more {A} (fp fc fi gp gc gi : option A) file d i : (gp = None -> fp = None) -> (gc = None -> fc = None) -> (gi = None -> fi = None) ->
  like fp fc fi file d i -> like gp gc gi file d i.
Proof. intros P C I (A1 & (M1 & M2) & (C1 & C2) & (I1 & I2)). repeat split; auto; try apply A1; try apply M1; try apply C1; try apply I1; try apply M2; try apply C2; auto. Qed.

Lemma like_axis {A} (fp fc fi : option A) file d i ax : like fp fc fi file d i -> like fp fc fi file d (set_axis i ax).
Proof. auto. Qed.

Lemma look_none (w : world) p : look w p = None <-> p = None. Proof. destruct p; cbn; split; congruence. Qed.
Lemma like_look (w : world) p c q file d i : like p c q file d i <-> like (look w p) (look w c) (look w q) file d i.
Proof. unfold like. rewrite !look_none. reflexivity. Qed.

Lemma step_tracks file k w o : inv k w -> respects k w o -> keeps k o -> tracks file k w -> tracks file k (fst (step w o)).
Proof.
  intros I Rs Kp T. pose proof I as (v & E & Rn & Ro & F & Bn). pose proof (T v E) as Lv.
  assert (L : k < List.length (objs w)) by (apply nth_error_Some; congruence).
  assert (SET : forall j f, (j = k -> forall v', f v = Some v' -> like (pp v') (cp v') (ip v') file (dofs v') (ind w)) -> tracks file k (fst (on_setter w j f))).
  { intros j f H. unfold on_setter, on. destruct (nth_error (objs w) j) as [vj|] eqn:Ej; [|exact T].
    destruct (f vj) as [v'|] eqn:Fj; [|exact T]. cbn [fst]. intros v0 E0.
    assert (j < List.length (objs w)) by (apply nth_error_Some; congruence). rewrite nth_put in E0 by auto.
    destruct (Nat.eqb_spec k j) as [->|N].
    - injection E0 as <-. rewrite E in Ej. injection Ej as <-. apply H; auto.
    - apply T. exact E0. }
  assert (KD : forall v v' : vobj, kept v v' -> dofs v' = dofs v) by (intros a b [-> | (_ & _ & _ & Q)]; auto).
  destruct o as [fl|x b|b|b s|p f|j d|j b|j p|j p|j p|f|j|j]; cbn [VmecModel.step respects keeps] in *.
  - destruct Rs.
  - intros v0 E0. cbn [fst objs] in E0. rewrite nth_error_app1 in E0 by auto. apply T; auto.
  - intros v0 E0. apply T; auto.
  - intros v0 E0. cbn [fst objs] in E0. rewrite nth_ring, E in E0. cbn in E0. injection E0 as <-. destruct (member (NSurf b) (parents v)); exact Lv.
  - intros v0 E0. cbn [fst objs] in E0. rewrite nth_ring, E in E0. cbn in E0. injection E0 as <-. destruct (member (NProf p) (parents v)); exact Lv.
  - unfold on. destruct (nth_error (objs w) j) as [vj|] eqn:Ej; [|exact T]. cbn [fst].
    assert (Lj : j < List.length (objs w)) by (apply nth_error_Some; congruence).
    destruct Rs as [-> | Rs].
    + rewrite E in Ej. injection Ej as <-. rewrite Rn. intros v0 E0.
      change (nth_error (objs (put w k (v_need (v_dofs v d) true))) k = Some v0) in E0.
      rewrite nth_put, Nat.eqb_refl in E0 by auto. injection E0 as <-.
      destruct Lv as ((A1 & A2 & A3 & A4 & A5 & A6 & A7) & (M1 & M2) & (C1 & C2) & (I1 & I2)).
      cbn. split; [cbn; repeat split; auto|]. split; [split; [exact M1|intros z; split; [now apply M2|reflexivity]]|].
      split; [split; [exact C1|intros z; split; [now apply C2|reflexivity]]|]. split; auto.
    + rewrite (Rs _ Ej). intros v0 E0. rewrite nth_put in E0 by auto.
      destruct (Nat.eqb_spec k j) as [->|N]; [|now apply T].
      exfalso. rewrite (Rs v E) in Rn. discriminate.
  - apply SET. intros -> v' H. apply boundary_kept in H as (K & _ & -> & -> & ->); auto. now rewrite (KD _ _ K).
  - apply SET. intros -> v' H. destruct p as [a|]; [|congruence]. apply pressure_kept in H as (K & -> & -> & -> & _); auto.
    + rewrite (KD _ _ K). eapply like_more; [| | |exact Lv]; auto. discriminate.
    + intros a' [= <-]. now apply Rs.
  - apply SET. intros -> v' H. destruct p as [a|]; [|congruence]. apply current_kept in H as (K & -> & -> & -> & _); auto.
    + rewrite (KD _ _ K). eapply like_more; [| | |exact Lv]; auto. discriminate.
    + intros a' [= <-]. now apply Rs.
  - apply SET. intros -> v' H. destruct p as [a|]; [|congruence]. apply iota_kept in H as (K & -> & -> & -> & _); auto.
    + rewrite (KD _ _ K). eapply like_more; [| | |exact Lv]; auto. discriminate.
    + intros a' [= <-]. now apply Rs.
  - destruct Kp.
  - unfold on. destruct (nth_error (objs w) j) as [vj|] eqn:Ej; [|exact T]. cbn [fst]. intros v0 E0.
    assert (j < List.length (objs w)) by (apply nth_error_Some; congruence). rewrite nth_put in E0 by auto.
    destruct (Nat.eqb_spec k j) as [->|N]; [|now apply T]. injection E0 as <-. rewrite E in Ej. injection Ej as <-. exact Lv.
  - unfold on. destruct (nth_error (objs w) j) as [vj|] eqn:Ej; [|exact T].
    destruct Rs as [-> | Rs].
    + rewrite E in Ej. injection Ej as <-. unfold VmecModel.access. destruct (need v); cbn [negb]; [|exact T].
      rewrite Rn. cbn [negb v_iter bnd n_p n_c n_i pp cp ip].
      destruct (set_indata (ind w) (surf w (bnd v)) (n_p v) (n_c v) (n_i v) (look w (pp v)) (look w (cp v)) (look w (ip v))) as [i failed] eqn:SI.
      eapply set_indata_like in SI; [|apply like_look; exact Lv]. apply like_look in SI.
      assert (B : forall i' v', like (pp v) (cp v) (ip v) file (dofs v) i' -> pp v' = pp v -> cp v' = cp v -> ip v' = ip v -> dofs v' = dofs v -> tracks file k (put (put_ind w i') k v')).
      { intros i' v' Li E1 E2 E3 E4 v0 E0. rewrite nth_put, Nat.eqb_refl in E0 by auto. injection E0 as <-. now rewrite E1, E2, E3, E4. }
      destruct failed; [apply B; auto|]. destruct (solver i) as [[ierr x] ax]. apply (like_axis _ _ _ _ _ _ ax) in SI.
      destruct ((ierr =? 0) || (ierr =? 5))%Z; [apply B; auto|]. destruct (ierr =? 11)%Z; cbn [negb]; [|apply B; auto].
      destruct (ier_flag x =? 0)%Z; cbn [negb]; apply B; auto.
    + unfold VmecModel.access. rewrite (Rs _ Ej). destruct (need vj); exact T.
Qed.

Lemma run_tracks file k h : forall w, inv k w -> tracks file k w -> all_steps (respects k) w h -> Forall (keeps k) h -> tracks file k (run w h).
Proof.
  induction h as [|o r IH]; intros w I T A K; [exact T|]. destruct A as [A1 A2]. inversion K; subst. cbn [VmecModel.run]. apply IH; auto.
  - now apply step_inv.
  - apply step_tracks; auto.
Qed.

(** * C98: the result is a function of the file and of the current dofs, boundary and profiles, whatever
    the history: phiedge from the dofs, pres_scale 1 and curtor from the profile where one is installed and
    from the dofs otherwise, the profile data from the installed profiles and from the file otherwise *)
Theorem C98_history_does_not_matter : forall w0 file h, let k := List.length (objs w0) in let w1 := fst (step w0 (NewInput file)) in
  all_steps (respects k) w1 h -> Forall (keeps k) h ->
  exists v, nth_error (objs (run w1 h)) k = Some v /\
    snd (step (run w1 h) (Access k)) = verdict (inputs_of (set_scal file (fst (fst (dofs v))) (snd (fst (dofs v))) (snd (dofs v))) (run w1 h) v).
Proof.
  intros w0 file h k w1 A K. destruct (C98_accessors_are_current solver ier_flag power_fit quad01 linspace01 w0 file h A) as (v & E & H).
  exists v. split; auto. unfold k, w1 in *. rewrite H. f_equal.
  assert (T : tracks file k w1).
  { intros v0 E0. unfold w1, k in E0. cbn [VmecModel.step fst objs] in E0. rewrite nth_error_app2, Nat.sub_diag in E0 by lia. injection E0 as <-.
    cbn. repeat split. }
  pose proof (run_tracks file k h w1 (new_inv solver ier_flag power_fit quad01 linspace01 w0 file) T A K v E) as Lv.
  unfold VmecProps.inputs_of. apply like_inputs. apply -> like_look. exact Lv.
Qed.

(** ** VMEC is not run again without need *)
Theorem C98_no_needless_run : forall w k w' x, step w (Access k) = (w', Out x) ->
  exists v, nth_error (objs w') k = Some v /\ need v = false /\ step w' (Access k) = (w', Out x).
Proof.
  intros w k w' x. cbn [VmecModel.step]. unfold on. destruct (nth_error (objs w) k) as [v|] eqn:E; [|discriminate].
  assert (L : k < List.length (objs w)) by (apply nth_error_Some; congruence).
  unfold VmecModel.access at 1. destruct (need v) eqn:N; cbn [negb].
  - destruct (runnable v); cbn [negb]; [|discriminate].
    match goal with |- context [VmecModel.set_indata ?a ?b ?c ?d ?e ?f ?g ?h ?j ?l ?m] => destruct (VmecModel.set_indata a b c d e f g h j l m) as [i failed] end.
    destruct failed; [discriminate|]. destruct (solver i) as [[ierr y] ax].
    destruct ((ierr =? 0) || (ierr =? 5))%Z; [discriminate|]. destruct (ierr =? 11)%Z; cbn [negb]; [|discriminate].
    destruct (ier_flag y =? 0)%Z; cbn [negb]; [|discriminate]. injection 1 as <- <-.
    rewrite nth_put, Nat.eqb_refl by auto. eexists. split; [reflexivity|]. split; [reflexivity|]. reflexivity.
  - destruct (wout v) as [y|] eqn:Wv; [|discriminate]. injection 1 as <- <-. exists v. rewrite E. repeat split; auto.
    unfold VmecModel.access. rewrite N, Wv. reflexivity.
Qed.

(** ** Removing a profile does not bring back the data of the input file: after a run with a pressure (current,
    iota) profile, setting it to None makes VMEC run again, on the very same inputs *)
Lemma access_runs w k v x w' : nth_error (objs w) k = Some v -> need v = true -> runnable v = true -> step w (Access k) = (w', Out x) ->
  exists i ax, inputs_of (ind w) w v = Some i /\ verdict (Some i) = Out x /\ solver i = (11%Z, x, ax) /\
    w' = put (put_ind w (set_axis i ax)) k (v_need (v_wout (v_iter v (iter v + 1)%Z) (Some x)) false).
Proof.
  intros E N Rn. cbn [VmecModel.step]. unfold on. rewrite E. unfold VmecModel.access. rewrite N, Rn. cbn [negb v_iter bnd n_p n_c n_i pp cp ip].
  destruct (set_indata (ind w) (surf w (bnd v)) (n_p v) (n_c v) (n_i v) (look w (pp v)) (look w (cp v)) (look w (ip v))) as [i failed] eqn:SI.
  destruct failed; [discriminate|]. apply set_indata_spec in SI. destruct (solver i) as [[ierr y] ax] eqn:So.
  destruct ((ierr =? 0) || (ierr =? 5))%Z; [discriminate|]. destruct (Z.eqb_spec ierr 11) as [->|]; cbn [negb]; [|discriminate].
  destruct (ier_flag y =? 0)%Z eqn:Fl; cbn [negb]; [|discriminate]. intros H. injection H as <- <-.
  exists i, ax. split; [exact SI|]. split; [|split; [exact So|reflexivity]]. cbn [VmecProps.verdict]. rewrite So, Fl. reflexivity.
Qed.

Lemma access_needed w k v : nth_error (objs w) k = Some v -> need v = true -> runnable v = true ->
  snd (step w (Access k)) = verdict (inputs_of (ind w) w v).
Proof.
  intros E N Rn. cbn [VmecModel.step]. unfold on. rewrite E. unfold VmecModel.access. rewrite N, Rn. cbn [negb v_iter bnd n_p n_c n_i pp cp ip].
  unfold VmecProps.inputs_of.
  destruct (set_indata (ind w) (surf w (bnd v)) (n_p v) (n_c v) (n_i v) (look w (pp v)) (look w (cp v)) (look w (ip v))) as [i failed] eqn:SI.
  apply set_indata_spec in SI. rewrite SI. destruct failed; [reflexivity|]. cbn [VmecProps.verdict]. destruct (solver i) as [[ierr y] ax].
  destruct ((ierr =? 0) || (ierr =? 5))%Z eqn:B.
  - destruct (Z.eqb_spec ierr 11); [subst; discriminate|reflexivity].
  - destruct (ierr =? 11)%Z; cbn [negb andb]; [|reflexivity]. destruct (ier_flag y =? 0)%Z; reflexivity.
Qed.

Lemma inputs_drop (i : indata) b np nc ni fp fc fi i' ax gp gc gi : inputs i b np nc ni fp fc fi = Some i' ->
  (gp = fp \/ gp = None) -> (gc = fc \/ gc = None) -> (gi = fi \/ gi = None) -> inputs (set_axis i' ax) b np nc ni gp gc gi = Some i'.
Proof.
  unfold VmecProps.inputs. destruct ((101 <? i_mpol i) || (101 <? i_ntor i)) eqn:Z; [discriminate|].
  destruct (set_profile fp np (i_m i)) as [m|] eqn:Em; [|discriminate].
  destruct (set_profile fc nc (i_c i)) as [c|] eqn:Ec; [|discriminate].
  destruct (set_profile fi ni (i_i i)) as [io|] eqn:Ei; [|discriminate]. intros H Gp Gc Gi. injection H as <-.
  cbn [set_axis i_m i_c i_i i_bd rbs zbc i_lasym i_mpol i_ntor i_axis i_phiedge i_curtor i_pres i_rest]. rewrite Z.
  assert (X : forall fo n d d' go, set_profile fo n d = Some d' -> go = fo \/ go = None -> set_profile go n d' = Some d').
  { intros fo n d d' go H [-> | ->]; [eapply set_profile_idem; eauto | reflexivity]. }
  rewrite (X _ _ _ _ gp Em Gp), (X _ _ _ _ gc Ec Gc), (X _ _ _ _ gi Ei Gi), (set_profile_type _ _ _ _ _ _ Ec).
  destruct Gp as [-> | ->], Gc as [-> | ->]; destruct fp, fc; reflexivity.
Qed.

Lemma removed_stays w k v x w1 (o : op) v2 : nth_error (objs w) k = Some v -> need v = true -> runnable v = true ->
  step w (Access k) = (w1, Out x) -> (forall v1, nth_error (objs w1) k = Some v1 -> fst (step w1 o) = put w1 k (v2 v1) /\ need (v2 v1) = true /\ runnable (v2 v1) = true /\
    bnd (v2 v1) = bnd v /\ n_p (v2 v1) = n_p v /\ n_c (v2 v1) = n_c v /\ n_i (v2 v1) = n_i v /\
    (pp (v2 v1) = pp v \/ pp (v2 v1) = None) /\ (cp (v2 v1) = cp v \/ cp (v2 v1) = None) /\ (ip (v2 v1) = ip v \/ ip (v2 v1) = None)) ->
  snd (step (fst (step w1 o)) (Access k)) = Out x.
Proof.
  intros E N Rn A H. assert (L : k < List.length (objs w)) by (apply nth_error_Some; congruence).
  destruct (access_runs _ _ _ _ _ E N Rn A) as (i & ax & I1 & V1 & So & ->).
  set (vv := v_need (v_wout (v_iter v (iter v + 1)%Z) (Some x)) false) in *.
  set (w1 := put (put_ind w (set_axis i ax)) k vv) in *.
  assert (E1 : nth_error (objs w1) k = Some vv) by (unfold w1; rewrite nth_put, Nat.eqb_refl by auto; reflexivity).
  assert (L1 : k < List.length (objs w1)) by (apply nth_error_Some; congruence).
  destruct (H _ E1) as (-> & Q2 & Q3 & Q4 & Q5 & Q6 & Q7 & Q8 & Q9 & Q10).
  rewrite (access_needed _ k (v2 vv)); auto; [|rewrite nth_put, Nat.eqb_refl by auto; reflexivity].
  rewrite <- V1. f_equal. unfold VmecProps.inputs_of. rewrite Q4, Q5, Q6, Q7. cbn [put ind w1 put_ind].
  change (surf (put w1 k (v2 vv))) with (surf w). change (look (put w1 k (v2 vv))) with (look w).
  unfold VmecProps.inputs_of in I1.
  eapply inputs_drop; [exact I1| | |]; [destruct Q8 as [-> | ->]|destruct Q9 as [-> | ->]|destruct Q10 as [-> | ->]]; auto.
Qed.

Theorem C98_removed_profile_stays : forall w k v x w1, nth_error (objs w) k = Some v -> need v = true -> runnable v = true ->
  step w (Access k) = (w1, Out x) ->
  (forall p, pp v = Some p -> In (NProf p) (parents v) -> snd (step (fst (step w1 (SetPressure k None))) (Access k)) = Out x) /\
  (forall p, cp v = Some p -> In (NProf p) (parents v) -> snd (step (fst (step w1 (SetCurrent k None))) (Access k)) = Out x) /\
  (forall p, ip v = Some p -> In (NProf p) (parents v) -> snd (step (fst (step w1 (SetIota k None))) (Access k)) = Out x).
Proof.
  intros w k v x w1 E N Rn A. assert (L : k < List.length (objs w)) by (apply nth_error_Some; congruence).
  pose proof (access_runs _ _ _ _ _ E N Rn A) as (i & ax & I1 & V1 & So & EW).
  assert (EV : nth_error (objs w1) k = Some (v_need (v_wout (v_iter v (iter v + 1)%Z) (Some x)) false)) by (rewrite EW, nth_put, Nat.eqb_refl by auto; reflexivity).
  assert (RM : forall p (v1 : vobj), In (NProf p) (parents v1) -> exists l, remove1 (NProf p) (parents v1) = Some l).
  { intros p v1. generalize (parents v1). induction l as [|a r IH]; intros I; [destruct I|]. cbn.
    destruct (node_eqb a (NProf p)) eqn:Q; [eauto|]. destruct I as [-> | I]; [cbn in Q; rewrite Nat.eqb_refl in Q; discriminate|].
    destruct (IH I) as (l & ->). eexists; reflexivity. }
  split; [|split]; intros p P I.
  - destruct (RM p v I) as (l & Rl).
    apply (removed_stays w k v x w1 _ (fun v1 => v_pp (v_need (v_par v1 l) true) None)); auto.
    intros v1 E1. rewrite EV in E1. injection E1 as <-. cbn [VmecModel.step]. unfold on_setter, on. rewrite EV.
    unfold set_role. cbn [v_need v_wout v_iter pp parents]. rewrite P. unfold remove_parent. cbn [v_need v_wout v_iter pp parents]. rewrite Rl. cbn.
    repeat split; auto.
  - destruct (RM p v I) as (l & Rl).
    apply (removed_stays w k v x w1 _ (fun v1 => v_cp (v_need (v_par v1 l) true) None)); auto.
    intros v1 E1. rewrite EV in E1. injection E1 as <-. cbn [VmecModel.step]. unfold on_setter, on. rewrite EV.
    unfold set_role. cbn [v_need v_wout v_iter cp parents]. rewrite P. unfold remove_parent. cbn [v_need v_wout v_iter cp parents]. rewrite Rl. cbn.
    repeat split; auto.
  - destruct (RM p v I) as (l & Rl).
    apply (removed_stays w k v x w1 _ (fun v1 => v_ip (v_need (v_par v1 l) true) None)); auto.
    intros v1 E1. rewrite EV in E1. injection E1 as <-. cbn [VmecModel.step]. unfold on_setter, on. rewrite EV.
    unfold set_role. cbn [v_need v_wout v_iter ip parents]. rewrite P. unfold remove_parent. cbn [v_need v_wout v_iter ip parents]. rewrite Rl. cbn.
    repeat split; auto.
Qed.

(** ** Asymmetric boundaries: the rs and zc coefficients of the boundary are never given to VMEC *)
Lemma run_app h : forall w h', run w (h ++ h') = run (run w h) h'.
Proof. induction h; intros; cbn; auto. Qed.
Lemma all_steps_app P h : forall w h', all_steps P w (h ++ h') <-> all_steps P w h /\ all_steps P (run w h) h'.
Proof. induction h as [|o r IH]; intros w h'; cbn; [tauto|]. rewrite IH. tauto. Qed.

Theorem C98_asymmetric_boundary_ignored : forall w0 file h b s, let k := List.length (objs w0) in let w1 := fst (step w0 (NewInput file)) in
  all_steps (respects k) w1 h ->
  s_mpol s = s_mpol (surf (run w1 h) b) -> s_ntor s = s_ntor (surf (run w1 h) b) ->
  s_rc s = s_rc (surf (run w1 h) b) -> s_zs s = s_zs (surf (run w1 h) b) ->
  snd (step (run w1 (h ++ [SetSurface b s])) (Access k)) = snd (step (run w1 h) (Access k)).
Proof.
  intros w0 file h b s k w1 A E1 E2 E3 E4.
  assert (A' : all_steps (respects k) w1 (h ++ [SetSurface b s])) by (apply all_steps_app; split; auto; cbn; auto).
  destruct (C98_accessors_are_current solver ier_flag power_fit quad01 linspace01 w0 file h A) as (v & E & H).
  destruct (C98_accessors_are_current solver ier_flag power_fit quad01 linspace01 w0 file (h ++ [SetSurface b s]) A') as (v' & E' & H').
  fold w1 k in E, H, E', H'. unfold k, w1 in *. rewrite H, H'. f_equal.
  rewrite run_app in *. cbn [VmecModel.run VmecModel.step fst] in *. unfold VmecProps.inputs_of. cbn [ind surf].
  cbn [objs] in E'. rewrite nth_ring, E in E'. cbn in E'.
  assert (V : bnd v' = bnd v /\ n_p v' = n_p v /\ n_c v' = n_c v /\ n_i v' = n_i v /\ pp v' = pp v /\ cp v' = cp v /\ ip v' = ip v).
  { injection E' as <-. destruct (member (NSurf b) (parents v)); cbn; repeat split. }
  destruct V as (-> & -> & -> & -> & -> & -> & ->).
  change (look (mkW (ind (run (fst (step w0 (NewInput file))) h)) (nsurf (run (fst (step w0 (NewInput file))) h)) (fupd (surf (run (fst (step w0 (NewInput file))) h)) b s) (prof (run (fst (step w0 (NewInput file))) h)) (ring (NSurf b) (objs (run (fst (step w0 (NewInput file))) h))))) with (look (run (fst (step w0 (NewInput file))) h)).
  unfold fupd. destruct (Nat.eqb_spec (bnd v) b) as [->|]; [|reflexivity].
  unfold VmecProps.inputs. rewrite E1, E2, E3, E4. reflexivity.
Qed.

(** ** Two Vmec objects share the module: after a second object is made from [file2], the first one computes
    the equilibrium of [file2] with its own boundary *)
Theorem C98_second_object_takes_over : forall w0 file1 file2, let k := List.length (objs w0) in
  snd (step (run w0 [NewInput file1; NewInput file2]) (Access k)) =
  verdict (inputs file2 (file_surface file1) 10 10 10 None None None).
Proof.
  intros w0 file1 file2 k. cbn [VmecModel.run].
  rewrite (access_needed _ k (new_input file1 (nsurf w0))); auto.
  - unfold VmecProps.inputs_of, new_input. cbn [VmecModel.step fst bnd n_p n_c n_i pp cp ip ind surf nsurf look option_map]. f_equal. f_equal.
    unfold fupd. destruct (Nat.eqb_spec (nsurf w0) (S (nsurf w0))); [lia|]. now rewrite Nat.eqb_refl.
  - cbn [VmecModel.step fst objs]. rewrite nth_error_app1 by (rewrite app_length; cbn; unfold k; lia). rewrite nth_error_app2, Nat.sub_diag by (unfold k; lia). reflexivity.
Qed.

(** ** One profile object in two roles: replacing it in one role unlinks it, and its later changes go unnoticed *)
Theorem C98_shared_profile_goes_stale : forall w k v p q x f, nth_error (objs w) k = Some v -> runnable v = true ->
  pp v = Some p -> cp v = Some p -> parents v = [NSurf (bnd v); NProf p] -> q <> p ->
  let w1 := fst (step w (SetPressure k (Some q))) in
  forall w2, step w1 (Access k) = (w2, Out x) ->
  let w3 := fst (step w2 (SetProf p f)) in
  snd (step w3 (Access k)) = Out x /\ snd (step w2 (SetCurrent k (Some q))) = Raised.
Proof.
  intros w k v p q x f E Rn P C Pa Q w1 w2 A w3. assert (L : k < List.length (objs w)) by (apply nth_error_Some; congruence).
  assert (Npq : (q =? p) = false) by now apply Nat.eqb_neq.
  assert (E1 : exists v1, nth_error (objs w1) k = Some v1 /\ runnable v1 = true /\ need v1 = true /\ cp v1 = Some p /\ parents v1 = [NSurf (bnd v); NProf q]).
  { unfold w1. cbn [VmecModel.step]. unfold on_setter, on. rewrite E. unfold set_role. rewrite P, Npq. unfold remove_parent. rewrite Pa.
    cbn [remove1 node_eqb option_map]. rewrite Nat.eqb_refl. cbn [option_map]. unfold append_parent. cbn [v_pp v_need v_par parents member existsb node_eqb orb].
    cbn [fst]. eexists. rewrite nth_put, Nat.eqb_refl by auto. split; [reflexivity|]. cbn. auto. }
  destruct E1 as (v1 & E1 & R1 & N1 & C1 & Pa1). clearbody w1.
  destruct (access_runs _ _ _ _ _ E1 N1 R1 A) as (i & ax & _ & _ & _ & ->).
  assert (L1 : k < List.length (objs w1)) by (apply nth_error_Some; congruence).
  set (vv := v_need (v_wout (v_iter v1 (iter v1 + 1)%Z) (Some x)) false) in *. set (w2 := put (put_ind w1 (set_axis i ax)) k vv) in *.
  assert (E2 : nth_error (objs w2) k = Some vv) by (unfold w2; rewrite nth_put, Nat.eqb_refl by auto; reflexivity).
  split.
  - cbn [VmecModel.step]. unfold on. unfold w3. cbn [VmecModel.step fst objs]. rewrite nth_ring, E2. cbn [option_map].
    change (parents vv) with (parents v1). rewrite Pa1. cbn [member existsb node_eqb orb]. rewrite Nat.eqb_sym, Npq. cbn [orb]. reflexivity.
  - cbn [VmecModel.step]. unfold on_setter, on. rewrite E2. unfold set_role. change (cp vv) with (cp v1). rewrite C1, Npq.
    unfold remove_parent. change (parents vv) with (parents v1). rewrite Pa1. cbn [remove1 node_eqb option_map]. rewrite Npq. reflexivity.
Qed.

(** ** Entries of indata assigned after a run have no effect until need_to_run_code is set *)
Theorem C98_indata_assignment_is_not_seen : forall w k w' x f, step w (Access k) = (w', Out x) ->
  snd (step (fst (step w' (Poke f))) (Access k)) = Out x /\
  forall v, nth_error (objs w') k = Some v -> runnable v = true ->
    snd (step (run w' [Poke f; Flag k]) (Access k)) = verdict (inputs_of (f (ind w')) w' v).
Proof.
  intros w k w' x f A. destruct (C98_no_needless_run _ _ _ _ A) as (v & E & N & S). split.
  - revert S. cbn [VmecModel.step]. unfold on. change (objs (fst (put_ind w' (f (ind w')), @Done W))) with (objs w'). rewrite E.
    unfold VmecModel.access. rewrite N. cbn [negb]. injection 1 as H. now rewrite H.
  - intros v0 E0 Rn. rewrite E in E0. injection E0 as <-. assert (L : k < List.length (objs w')) by (apply nth_error_Some; congruence).
    cbn [VmecModel.run]. replace (fst (step (fst (step w' (Poke f))) (Flag k))) with (put (put_ind w' (f (ind w'))) k (v_need v true)) by (cbn [VmecModel.step fst]; unfold on; change (objs (put_ind w' (f (ind w')))) with (objs w'); rewrite E; reflexivity).
    rewrite (access_needed _ k (v_need v true)); auto. rewrite nth_put, Nat.eqb_refl by auto. reflexivity.
Qed.

(** ** Objects made from a wout file give its contents until anything they depend on changes, and raise forever after *)
Theorem C98_wout_object : forall w0 x b, let k := List.length (objs w0) in let w1 := fst (step w0 (NewWout x b)) in
  snd (step w1 (Access k)) = Out x /\
  (forall s d h, snd (step (run (fst (step w1 (SetSurface (nsurf w0) s))) h) (Access k)) = Raised /\
                 snd (step (run (fst (step w1 (SetOwn k d))) h) (Access k)) = Raised).
Proof.
  intros w0 x b k w1.
  assert (E1 : nth_error (objs w1) k = Some (new_wout x (nsurf w0))) by (unfold w1, k; cbn [VmecModel.step fst objs]; rewrite nth_error_app2, Nat.sub_diag by lia; reflexivity).
  assert (L1 : k < List.length (objs w1)) by (apply nth_error_Some; congruence).
  assert (DEAD : forall h w, (exists v, nth_error (objs w) k = Some v /\ runnable v = false /\ need v = true) -> snd (step (run w h) (Access k)) = Raised).
  { induction h as [|o r IH]; intros w (v & E & Rn & N).
    - cbn [VmecModel.run VmecModel.step]. unfold on. rewrite E. unfold VmecModel.access. rewrite N, Rn. reflexivity.
    - cbn [VmecModel.run]. apply IH. clear IH. assert (L : k < List.length (objs w)) by (apply nth_error_Some; congruence).
      assert (PUT : forall i j v', (j = k -> runnable v' = false /\ need v' = true) -> j < List.length (objs w) -> exists v0, nth_error (objs (put (put_ind w i) j v')) k = Some v0 /\ runnable v0 = false /\ need v0 = true).
      { intros i j v' H Lj. rewrite nth_put by auto. destruct (Nat.eqb_spec k j) as [->|]; [|eauto]. destruct (H eq_refl). eauto. }
      assert (SET : forall j f, (forall v', f v = Some v' -> runnable v' = runnable v /\ (need v' = true \/ v' = v)) -> exists v0, nth_error (objs (fst (on_setter w j f))) k = Some v0 /\ runnable v0 = false /\ need v0 = true).
      { intros j f H. unfold on_setter, on. destruct (nth_error (objs w) j) as [vj|] eqn:Ej; [|cbn; eauto]. destruct (f vj) as [v'|] eqn:Fj; [|cbn; eauto]. cbn [fst].
        apply (PUT (ind w) j v'); [|apply nth_error_Some; congruence]. intros ->. rewrite E in Ej. injection Ej as <-.
        destruct (H _ Fj) as [Q1 [Q2|Q2]]; [split; congruence|subst; auto]. }
      assert (ROLE : forall get set (v' : vobj) p, (forall a q, runnable (set a q) = runnable a) -> (forall a q, need (set a q) = need a) -> set_role get set v p = Some v' -> runnable v' = runnable v /\ (need v' = true \/ v' = v)).
      { intros get set v' p S1 S2. unfold set_role. cbv zeta. destruct (match p, get v with Some a, Some c => a =? c | None, None => true | _, _ => false end); [injection 1 as <-; auto|].
        destruct (match get v with Some old => remove_parent v (NProf old) | None => Some v end) as [v1|] eqn:Rm; [|discriminate].
        assert (Q : runnable v1 = runnable v /\ need v1 = true).
        { destruct (get v) as [old|]; [|injection Rm as <-; auto]. apply remove_parent_some in Rm as (l & -> & _). auto. }
        destruct Q as [Q1 Q2]. destruct p as [a|].
        - unfold append_parent. destruct (member (NProf a) (parents (set v1 (Some a)))); injection 1 as <-; cbn; rewrite S1; auto.
        - injection 1 as <-. rewrite S1, S2. auto. }
      destruct o as [fl|y c|c|c s|p f|j d|j c|j p|j p|j p|f|j|j]; cbn [VmecModel.step].
      + cbn [fst objs]. rewrite nth_error_app1 by auto. eauto.
      + cbn [fst objs]. rewrite nth_error_app1 by auto. eauto.
      + cbn [fst objs]. eauto.
      + cbn [fst objs]. rewrite nth_ring, E. cbn. destruct (member (NSurf c) (parents v)); eauto.
      + cbn [fst objs]. rewrite nth_ring, E. cbn. destruct (member (NProf p) (parents v)); eauto.
      + unfold on. destruct (nth_error (objs w) j) as [vj|] eqn:Ej; [|cbn; eauto]. cbn [fst].
        assert (Lj : j < List.length (objs w)) by (apply nth_error_Some; congruence).
        destruct (PUT (ind w) j (v_need (v_dofs vj d) true)) as (v0 & Q); auto.
        * intros ->. rewrite E in Ej. injection Ej as <-. auto.
        * exists v0. destruct (runnable vj); exact Q.
      + apply SET. intros v'. unfold set_boundary. destruct (c =? bnd v); [injection 1 as <-; auto|].
        destruct (remove_parent v (NSurf (bnd v))) as [v1|] eqn:Rm; [|discriminate]. apply remove_parent_some in Rm as (l & -> & _).
        unfold append_parent. destruct (member (NSurf c) _); injection 1 as <-; auto.
      + apply SET. intros v'. apply ROLE; reflexivity.
      + apply SET. intros v'. apply ROLE; reflexivity.
      + apply SET. intros v'. apply ROLE; reflexivity.
      + cbn. eauto.
      + unfold on. destruct (nth_error (objs w) j) as [vj|] eqn:Ej; [|cbn; eauto]. cbn [fst].
        apply (PUT (ind w) j (v_need vj true)); [|apply nth_error_Some; congruence]. intros ->. rewrite E in Ej. injection Ej as <-. auto.
      + unfold on. destruct (nth_error (objs w) j) as [vj|] eqn:Ej; [|cbn; eauto]. unfold VmecModel.access.
        destruct (need vj) eqn:Nj; cbn [negb]; [|cbn; eauto]. destruct (runnable vj) eqn:Rj; cbn [negb]; [|cbn; eauto].
        assert (Lj : j < List.length (objs w)) by (apply nth_error_Some; congruence).
        assert (NJ : j <> k) by (intros ->; rewrite E in Ej; injection Ej as <-; congruence).
        match goal with |- context [VmecModel.set_indata ?a ?b ?c ?d ?e ?f ?g ?h ?j ?l ?m] => destruct (VmecModel.set_indata a b c d e f g h j l m) as [i failed] end.
        destruct failed; [apply PUT; [congruence|auto]|]. destruct (solver i) as [[ierr y] ax].
        destruct ((ierr =? 0) || (ierr =? 5))%Z; [apply PUT; [congruence|auto]|]. destruct (ierr =? 11)%Z; cbn [negb]; [|apply PUT; [congruence|auto]].
        destruct (ier_flag y =? 0)%Z; cbn [negb]; (apply PUT; [congruence|auto]). }
  split.
  - cbn [VmecModel.step]. unfold on. rewrite E1. reflexivity.
  - intros s d h. split; apply DEAD.
    + cbn [VmecModel.step fst objs]. rewrite nth_ring, E1. cbn. rewrite Nat.eqb_refl. cbn. eauto.
    + cbn [VmecModel.step]. unfold on. rewrite E1. cbn [fst new_wout runnable]. rewrite nth_put, Nat.eqb_refl by auto. eexists. split; [reflexivity|]. auto.
Qed.

(** ** First run: VMEC is given back the boundary of the file *)
Theorem C98_file_boundary : forall (file i : indata), inputs file (file_surface file) 10 10 10 None None None = Some i ->
  forall m n, (m <= i_mpol file -> (- Z.of_nat (i_ntor file) <= n <= Z.of_nat (i_ntor file))%Z ->
     rbc (i_bd i) (101 + n)%Z m = rbc (i_bd file) (101 + n)%Z m /\ zbs (i_bd i) (101 + n)%Z m = zbs (i_bd file) (101 + n)%Z m) /\
   (~ (m <= i_mpol file /\ (- Z.of_nat (i_ntor file) <= n <= Z.of_nat (i_ntor file))%Z) -> rbc (i_bd i) (101 + n)%Z m = 0%R /\ zbs (i_bd i) (101 + n)%Z m = 0%R).
Proof.
  intros file i. unfold VmecProps.inputs. destruct ((101 <? i_mpol file) || (101 <? i_ntor file)) eqn:Z; [discriminate|].
  apply orb_false_iff in Z as [Z1 Z2]. apply Nat.ltb_ge in Z1, Z2.
  cbn [VmecModel.set_profile]. injection 1 as <-. cbn [i_bd rbc zbs]. intros m n. unfold boundary_array. cbn [file_surface s_rc s_zs s_mpol s_ntor].
  rewrite !Nat.min_l by auto. replace (101 + n - 101)%Z with n by lia.
  destruct (Nat.leb_spec m (i_mpol file)); destruct (Z.leb_spec (- Z.of_nat (i_ntor file)) n); destruct (Z.leb_spec n (Z.of_nat (i_ntor file))); cbn [andb]; split; intros; try (exfalso; lia); auto.
Qed.

(** ** The total current given to VMEC.  A current profile prescribes dI/ds for the types power_series and *_ip,
    and I itself for the types *_i *)
Definition prescribes_derivative (t : string) : bool :=
  existsb (fun u => (t =? u)%string) ["power_series"; "cubic_spline_ip"; "akima_spline_ip"; "line_segment_ip"]%string.
Definition supported : list string := ["power_series"; "power_series_i"; "cubic_spline_i"; "cubic_spline_ip"; "akima_spline_i"; "akima_spline_ip"; "line_segment_i"; "line_segment_ip"]%string.

Theorem C98_total_current : forall (i : indata) b np nc ni fp f fi i', inputs i b np nc ni fp (Some f) fi = Some i' -> In (ptype (i_c i)) supported ->
  (ptype (i_c i) <> "line_segment_ip"%string -> i_curtor i' = if prescribes_derivative (ptype (i_c i)) then quad01 f else f 1%R) /\
  (ptype (i_c i) = "line_segment_ip"%string -> i_curtor i' = f 1%R).
Proof.
  intros i b np nc ni fp f fi i'. unfold VmecProps.inputs. destruct ((101 <? i_mpol i) || (101 <? i_ntor i)); [discriminate|].
  destruct (set_profile fp np (i_m i)); [|discriminate]. destruct (set_profile (Some f) nc (i_c i)); [|discriminate].
  destruct (set_profile fi ni (i_i i)); [|discriminate]. injection 1 as <-. cbn [i_curtor].
  generalize (ptype (i_c i)). intros t I. cbn in I.
  repeat match goal with I : _ \/ _ |- _ => destruct I as [<- | I] end; try destruct I; split; intros; reflexivity || congruence.
Qed.
End Thms.

(** * A concrete case: VMEC answering with phiedge + pres_scale + rbc(1,0); a pressure profile is installed,
    its dofs, the boundary and phiedge are changed, and results are asked for in between *)
Section Example_.
Open Scope R_scope.
Definition exsolver (i : @indata unit) : Z * R * axis := (11%Z, i_phiedge i + i_pres i + rbc (i_bd i) 101%Z 1%nat, fun _ _ => 7).
Definition expd : pdata := mkP "power_series" [3; 0; 0] [] [].
Definition exfile (ph : R) : @indata unit :=
  mkI false 1%nat 1%nat (mkB (fun _ _ => 2) (fun _ _ => 2) (fun _ _ => 0) (fun _ _ => 0)) (fun _ _ => 0) ph 0 4 expd expd expd tt.
Definition exsurf (r : R) : surface := mkS 1 1 (fun _ _ => r) (fun _ _ => 1) (fun _ _ => 0) (fun _ _ => 0).
Definition exstep := step (W := R) exsolver (fun _ => 0%Z) (fun n f => repeat (f 0) (Nat.min n 3)) (fun f => f 0) (fun n => repeat 0 n).
Definition exrun := run (W := R) exsolver (fun _ => 0%Z) (fun n f => repeat (f 0) (Nat.min n 3)) (fun f => f 0) (fun n => repeat 0 n).
Definition exw0 : @world unit R := mkW (exfile 0) 0 (fun _ => exsurf 0) (fun _ _ => 0) [].
Definition exh : list (@op unit R) :=
  [Access 0; SetPressure 0 (Some 5%nat); SetProf 5 (fun s => s); Access 0; SetSurface 0 (exsurf 30); SetOwn 0 (200, 0, 9)].

Example C98_nonvacuous :
  all_steps exsolver (fun _ => 0%Z) (fun n f => repeat (f 0) (Nat.min n 3)) (fun f => f 0) (fun n => repeat 0 n) (respects 0) (fst (exstep exw0 (NewInput (exfile 100)))) exh /\
  Forall (keeps 0) exh /\
  snd (exstep (exrun exw0 [NewInput (exfile 100)]) (Access 0)) = Out (100 + 4 + 2) /\
  snd (exstep (exrun exw0 (NewInput (exfile 100) :: exh)) (Access 0)) = Out (200 + 1 + 30) /\
  (* with a second object in the process the first one gets phiedge of the other file *)
  snd (exstep (exrun exw0 [NewInput (exfile 100); NewInput (exfile 300)]) (Access 0)) = Out (300 + 4 + 2).
Proof.
  split; [|split; [|split; [|split]]].
  - unfold exh, exstep. cbn. split; [auto|]. split; [|split; [auto|split; [auto|split; [auto|split; auto]]]].
    intros _ v. destruct (VmecModel.set_indata _ _ _ _ _ _ _ _ _ _ _) as [i [|]]; cbn; intros H; injection H as <-; cbn; split; discriminate.
  - repeat constructor; cbn; auto.
  - cbn. reflexivity.
  - unfold exh. cbn. reflexivity.
  - cbn. reflexivity.
Qed.
End Example_.
