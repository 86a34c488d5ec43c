(** C100: the data an objective reads from a Boozer object. *)
From Coq Require Import Reals List ZArith Lia Lra Bool Sorting.Sorted Permutation.
Import ListNotations.
From Verif Require Import ListAux VecAux BoozerModel.
Open Scope R_scope.

(** * Specification *)

(** the half-grid surfaces of an equilibrium with [n] full-grid surfaces are (j + 1/2)/(n-1), j = 0..n-2;
    [j] is the surface nearest to [s], the inner one if two are equally near *)
Definition half (n j : nat) : R := (INR j + / 2) / INR (n - 1).
Definition is_nearest (n : nat) (s : R) (j : nat) : Prop :=
  (j < n - 1)%nat /\
  forall i, (i < n - 1)%nat -> Rabs (half n j - s) < Rabs (half n i - s) \/ (Rabs (half n j - s) = Rabs (half n i - s) /\ (j <= i)%nat).

Section Spec.
Context {E : Type}.
Definition is_clear (o : @op E) : bool := match o with ClearSet | ClearDict => true | _ => false end.
(** the latest replacement of the registry, if any, was by a set *)
Definition a_set (h : list (@op E)) : Prop := forall h1 h2, h = h1 ++ ClearDict :: h2 -> In ClearSet h2.
Definition accepted (h1 : list (@op E)) (l : list R) : Prop := (forall s, In s l -> 0 <= s <= 1) /\ a_set h1.
(** [s] was accepted by [register] after the latest clearing of the registry *)
Definition registered (h : list (@op E)) (s : R) : Prop :=
  exists h1 l h2, h = h1 ++ Register l :: h2 /\ In s l /\ accepted h1 l /\ forall o, In o h2 -> is_clear o = false.
(** the equilibrium and the resolution after a history *)
Definition eq_after (e0 : option E) (h : list op) : option E :=
  fold_left (fun e o => match o with Equil e' | Silent e' => e' | _ => e end) h e0.
Definition res_after (r0 : nat * nat) (h : list (@op E)) : nat * nat :=
  fold_left (fun r o => match o with SetRes m n => (m, n) | _ => r end) h r0.
Definition loud (o : @op E) : bool := match o with Silent _ | SetRes _ _ => false | _ => true end.
End Spec.

(** * Python containers *)
Lemma Reqb_true x y : Reqb x y = true <-> x = y.
Proof. unfold Reqb. destruct (Req_EM_T x y); split; auto; discriminate. Qed.
Lemma Rleb_true x y : Rleb x y = true <-> x <= y.
Proof. unfold Rleb. destruct (Rle_dec x y); split; auto; discriminate. Qed.

Lemma insert_perm {A} le (a : A) l : Permutation (a :: l) (insert le a l).
Proof.
  induction l as [|b r IH]; cbn; [reflexivity|]. destruct (le a b); [reflexivity|].
  rewrite perm_swap. now constructor.
Qed.
Lemma sorted_perm {A} le (l : list A) : Permutation l (sorted le l).
Proof. induction l as [|a l IH]; cbn; [reflexivity|]. rewrite <- insert_perm. now constructor. Qed.
Lemma sorted_in {A} le (l : list A) a : In a (sorted le l) <-> In a l.
Proof. split; apply Permutation_in; [symmetry|]; apply sorted_perm. Qed.

Lemma to_set_spec {A} eqb (Eq : forall a b : A, eqb a b = true <-> a = b) l :
  (forall a, In a (to_set eqb l) <-> In a l) /\ NoDup (to_set eqb l).
Proof.
  unfold to_set.
  assert (G : forall l s, NoDup s -> (forall a, In a (fold_left (fun s a => if existsb (eqb a) s then s else s ++ [a]) l s) <-> In a s \/ In a l) /\ NoDup (fold_left (fun s a => if existsb (eqb a) s then s else s ++ [a]) l s)).
  { clear l. induction l as [|b l IH]; intros s N; cbn; [split; [tauto|auto]|].
    destruct (existsb (eqb b) s) eqn:X.
    - destruct (IH s N) as [I1 I2]. split; auto. intros a. rewrite I1. apply existsb_exists in X as (c & C1 & C2). apply Eq in C2. subst c.
      split; [tauto|]. intros [H|[<-|H]]; auto.
    - assert (NB : ~ In b s). { intros H. assert (existsb (eqb b) s = true); [|congruence]. apply existsb_exists. exists b. split; auto. now apply Eq. }
      destruct (IH (s ++ [b])) as [I1 I2].
      { apply NoDup_rev in N. rewrite <- (rev_involutive (s ++ [b])). apply NoDup_rev. rewrite rev_app_distr. cbn. constructor; auto. rewrite <- in_rev. auto. }
      split; auto. intros a. rewrite I1, in_app_iff. cbn. tauto. }
  destruct (G l [] (NoDup_nil _)) as [G1 G2]. split; auto. intros a. rewrite G1. cbn. tauto.
Qed.

Lemma index_spec a l : In a l -> exists i, index a l = Some i /\ nth_error l i = Some a.
Proof.
  induction l as [|b r IH]; cbn; [tauto|]. intros H. destruct (Nat.eqb_spec a b) as [<-|N]; [exists 0%nat; auto|].
  destruct H as [H|H]; [congruence|]. destruct (IH H) as (i & -> & I). exists (S i). auto.
Qed.

Lemma argmin_spec l : l <> [] -> exists j, argmin l = Some j /\ (j < length l)%nat /\
  forall i, (i < length l)%nat -> nth j l 0 < nth i l 0 \/ (nth j l 0 = nth i l 0 /\ (j <= i)%nat).
Proof.
  induction l as [|x r IH]; [congruence|]. intros _. cbn [argmin]. destruct r as [|y r].
  - cbn. exists 0%nat. split; [reflexivity|]. split; [auto|]. intros [|i] H; [auto|cbn in H; lia].
  - destruct IH as (j & Ej & Lj & Hj); [discriminate|]. rewrite Ej. set (r' := y :: r) in *.
    unfold Rleb. destruct (Rle_dec x (nth j r' 0)) as [L|L].
    + exists 0%nat. split; [reflexivity|]. split; [cbn; lia|]. intros [|i] Hi; [auto|]. cbn [nth]. specialize (Hj i ltac:(cbn in *; lia)).
      destruct Hj as [Hj|[Hj _]]; [left; lra|]. destruct (Rle_lt_or_eq_dec _ _ L); [left; lra|right; split; [lra|lia]].
    + exists (S j). split; [reflexivity|]. split; [cbn in *; lia|]. intros [|i] Hi; cbn [nth]; [left; lra|].
      specialize (Hj i ltac:(cbn in *; lia)). destruct Hj as [Hj|[Hj K]]; [left; lra|right; split; [lra|lia]].
Qed.

Lemma half_eq n j : (1 < n)%nat -> s_half n j = half n j.
Proof.
  intros H. unfold s_half, half, s_full. rewrite S_INR. change (INR 0) with 0. change (INR 1) with 1.
  assert (0 < INR (n - 1)) by (apply lt_0_INR; lia). replace 0.5 with (/ 2) by lra. field. lra.
Qed.

Lemma nearest_spec n s : (1 < n)%nat -> exists j, nearest n s = Some j /\ is_nearest n s j.
Proof.
  intros H. unfold nearest. destruct (argmin_spec (map (fun j => Rabs (s_half n j - s)) (seq 0 (n - 1)))) as (j & Ej & Lj & Hj).
  { destruct (n - 1)%nat eqn:Q; [lia|]. discriminate. }
  rewrite map_length, seq_length in Lj. exists j. split; auto. split; auto. intros i Hi.
  rewrite map_length, seq_length in Hj. specialize (Hj i Hi).
  assert (V : forall k, (k < n - 1)%nat -> nth k (map (fun j => Rabs (s_half n j - s)) (seq 0 (n - 1))) 0 = Rabs (half n k - s)).
  { intros k Hk. rewrite (nth_indep _ 0 (Rabs (s_half n 0 - s))) by (rewrite map_length, seq_length; auto).
    rewrite (map_nth (fun j => Rabs (s_half n j - s))). rewrite seq_nth by auto. cbn. now rewrite half_eq. }
  rewrite !V in Hj by auto. auto.
Qed.

Lemma is_nearest_unique n s i j : is_nearest n s i -> is_nearest n s j -> i = j.
Proof.
  intros [Li Hi] [Lj Hj]. specialize (Hi j Lj). specialize (Hj i Li).
  destruct Hi as [Hi|[Hi Ki]], Hj as [Hj|[Hj Kj]]; try lra. lia.
Qed.

Lemma find_flat {B} (f : R -> option B) s v : forall l, In s l -> f s = Some v ->
  lookup s (flat_map (fun s => match f s with Some v => [(s, v)] | None => [] end) l) = Some v.
Proof.
  unfold lookup. induction l as [|a r IH]; cbn; [tauto|]. intros H Fs. destruct (Req_EM_T s a) as [<-|N].
  - rewrite Fs. cbn. replace (Reqb s s) with true by (symmetry; now apply Reqb_true). reflexivity.
  - destruct H as [H|H]; [congruence|]. destruct (f a) eqn:Fa; cbn; [|auto].
    replace (Reqb s a) with false; [auto|]. symmetry. apply not_true_is_false. now rewrite Reqb_true.
Qed.
Lemma find_flat_none {B} (f : R -> option B) s : forall l, ~ In s l ->
  lookup s (flat_map (fun s => match f s with Some v => [(s, v)] | None => [] end) l) = None.
Proof.
  unfold lookup. induction l as [|a r IH]; cbn; [auto|]. intros H. destruct (f a); cbn; [|tauto].
  replace (Reqb s a) with false; [tauto|]. symmetry. apply not_true_is_false. rewrite Reqb_true. intros ->. tauto.
Qed.

Lemma surfaces_in n ss j : (1 < n)%nat -> In j (surfaces n ss) <-> exists s, In s ss /\ is_nearest n s j.
Proof.
  intros H. unfold surfaces. rewrite sorted_in, (proj1 (to_set_spec Nat.eqb Nat.eqb_eq _)), in_flat_map.
  split; intros (s & I & K); exists s; split; auto.
  - destruct (nearest_spec n s H) as (k & Ek & Nk). rewrite Ek in K. destruct K as [<-|[]]. auto.
  - destruct (nearest_spec n s H) as (k & Ek & Nk). rewrite Ek. left. eapply is_nearest_unique; eauto.
Qed.
Lemma insert_sorted a l : StronglySorted Nat.lt l -> ~ In a l -> StronglySorted Nat.lt (insert Nat.leb a l).
Proof.
  induction l as [|b r IH]; cbn; intros S N; [repeat constructor|]. inversion S as [|? ? S' F]; subst.
  destruct (Nat.leb_spec a b) as [L|L].
  - constructor; auto. constructor; [lia|]. rewrite Forall_forall in *. intros x X. specialize (F x X). lia.
  - constructor; [apply IH; tauto|]. rewrite Forall_forall in *. intros x X.
    apply (Permutation_in _ (Permutation_sym (insert_perm Nat.leb a r))) in X. destruct X as [<-|X]; [lia|auto].
Qed.
Lemma surfaces_sorted n ss : StronglySorted Nat.lt (surfaces n ss).
Proof.
  unfold surfaces. destruct (to_set_spec Nat.eqb Nat.eqb_eq (flat_map (fun s => match nearest n s with Some j => [j] | None => [] end) ss)) as [_ N].
  revert N. generalize (to_set Nat.eqb (flat_map (fun s => match nearest n s with Some j => [j] | None => [] end) ss)). intros l N.
  induction l as [|a r IH]; cbn; [constructor|]. inversion N as [|? ? NI N']; subst. apply insert_sorted; [auto|]. intros X. apply NI. exact (proj1 (sorted_in Nat.leb r a) X).
Qed.

Section Thms.
Context {E D : Type}.
Variable ns : E -> nat.
Variable xform : E -> nat -> nat -> nat -> D.
Notation bz := (@boozer D).
Notation st := (option E * bz)%type.
Notation run := (bruns ns xform).

Definition fetch (b : bz) (s : R) : option (D * R) :=
  match lookup s (s_to_index b), lookup s (s_used b) with
  | Some i, Some u => match nth_error (bx b) i with Some d => Some (d, u) | None => None end
  | _, _ => None
  end.

(** what a registered surface should give *)
Definition answer (eq : option E) (r : nat * nat) (s : R) (o : option (D * R)) : Prop :=
  match eq with
  | Some e => if Nat.leb (ns e) 1 then o = None
              else exists j, is_nearest (ns e) s j /\ o = Some (xform e (fst r) (snd r) j, half (ns e) j)
  | None => o = None
  end.

Definition regs (b : bz) : list R := match reg b with Some l => l | None => [] end.

Lemma index_of_flat n ss : index_of n ss = flat_map (fun s => match (match nearest n s with Some j => index j (surfaces n ss) | None => None end) with Some v => [(s, v)] | None => [] end) ss.
Proof. unfold index_of. apply flat_map_ext. intros a. destruct (nearest n a); auto. Qed.
Lemma used_of_flat n ss : used_of n ss = flat_map (fun s => match (match nearest n s with Some j => Some (s_half n j) | None => None end) with Some v => [(s, v)] | None => [] end) ss.
Proof. unfold used_of. apply flat_map_ext. intros a. destruct (nearest n a); auto. Qed.

Lemma fetch_fresh e b s : need b = true -> (1 < ns e)%nat ->
  let b' := fst (brun ns xform (Some e) b) in
  need b' = false /\ reg b' = reg b /\
  (In s (regs b) -> exists j, is_nearest (ns e) s j /\ fetch b' s = Some (xform e (mpol b) (ntor b) j, half (ns e) j)) /\
  (~ In s (regs b) -> fetch b' s = None).
Proof.
  intros Nd Hn b'. unfold b', brun. rewrite Nd. cbn [negb]. replace (Nat.leb (ns e) 1) with false by (symmetry; apply Nat.leb_gt; lia).
  fold (regs b). cbn [fst need reg]. split; [reflexivity|]. split; [reflexivity|].
  set (ss := sorted Rleb (regs b)). unfold fetch. cbn [s_to_index s_used bx]. rewrite index_of_flat, used_of_flat. split.
  - intros I. assert (I' : In s ss) by now apply sorted_in. destruct (nearest_spec (ns e) s Hn) as (j & Ej & Nj).
    destruct (index_spec j (surfaces (ns e) ss)) as (i & Ei & Ni); [apply surfaces_in; eauto|].
    rewrite (find_flat (fun s => match nearest (ns e) s with Some j => index j (surfaces (ns e) ss) | None => None end) s i) by (auto; now rewrite Ej).
    rewrite (find_flat (fun s => match nearest (ns e) s with Some j => Some (s_half (ns e) j) | None => None end) s (s_half (ns e) j)) by (auto; now rewrite Ej).
    rewrite nth_error_map, Ni. cbn. exists j. split; auto. now rewrite half_eq.
  - intros I. assert (I' : ~ In s ss) by (intros X; apply I; now apply sorted_in in X).
    rewrite (find_flat_none (fun s => match nearest (ns e) s with Some j => index j (surfaces (ns e) ss) | None => None end)) by auto. reflexivity.
Qed.

Lemma data_fetch eq b s : data ns xform eq b s = (fst (brun ns xform eq b), if snd (brun ns xform eq b) then fetch (fst (brun ns xform eq b)) s else None).
Proof. unfold data, fetch. destruct (brun ns xform eq b) as [b' ok]. destruct ok; reflexivity. Qed.

Lemma run_snoc w h o : run w (h ++ [o]) = bstep ns xform (run w h) o.
Proof. unfold bruns. now rewrite fold_left_app. Qed.

Lemma brun_keeps eq b : let b' := fst (brun ns xform eq b) in reg b' = reg b /\ mpol b' = mpol b /\ ntor b' = ntor b.
Proof. unfold brun. destruct (negb (need b)); [auto|]. destruct eq as [e|]; [|auto]. destruct (Nat.leb (ns e) 1); auto. Qed.

Lemma a_set_nil : a_set (@nil (@op E)). Proof. intros [|] ?; discriminate. Qed.
Lemma a_set_snoc (h : list (@op E)) o : a_set (h ++ [o]) <-> o = ClearSet \/ (o <> ClearDict /\ a_set h).
Proof.
  split.
  - intros H. destruct (is_clear o) eqn:C.
    + destruct o; try discriminate; [now left|]. exfalso. destruct (H h [] eq_refl).
    + right. split; [intros ->; discriminate|]. intros h1 h2 E1. specialize (H h1 (h2 ++ [o])).
      rewrite E1, <- app_assoc in H. specialize (H eq_refl). apply in_app_iff in H as [H|[H|[]]]; [exact H|]. subst o. discriminate.
  - intros H h1 h2 E1. destruct h2 as [|x g _] using rev_ind.
    + apply app_inj_tail in E1 as [_ E1]. destruct H as [H|[H _]]; congruence.
    + rewrite app_comm_cons, app_assoc in E1. apply app_inj_tail in E1 as [-> ->]. apply in_app_iff.
      destruct H as [H|[_ H]]; [right; left; auto|left; eapply H; eauto].
Qed.
Lemma registered_snoc (h : list (@op E)) o s : registered (h ++ [o]) s <->
  (is_clear o = false /\ registered h s) \/ (exists l, o = Register l /\ In s l /\ accepted h l).
Proof.
  split.
  - intros (h1 & l & h2 & E1 & I & A & C). destruct h2 as [|x g _] using rev_ind.
    + apply app_inj_tail in E1 as [-> ->]. right. eauto.
    + rewrite app_comm_cons, app_assoc in E1. apply app_inj_tail in E1 as [-> ->]. left. split; [apply C, in_app_iff; cbn; auto|].
      exists h1, l, g. split; [auto|split; [auto|split; [auto|]]]. intros o O. apply C, in_app_iff. auto.
  - intros [[C (h1 & l & h2 & -> & I & A & C2)]|(l & -> & I & A)].
    + exists h1, l, (h2 ++ [o]). rewrite <- app_assoc. split; [auto|split; [auto|split; [auto|]]]. intros o' O. apply in_app_iff in O as [O|[<-|[]]]; auto.
    + exists h, l, []. split; [auto|split; [auto|split; [auto|]]]. intros o [].
Qed.

Lemma register_some (b : bz) l : (forall s, In s l -> 0 <= s <= 1) -> reg b <> None ->
  exists b', register b l = Some b' /\ need b' = true /\ (forall s, In s (regs b') <-> In s (regs b) \/ In s l) /\ reg b' <> None /\ mpol b' = mpol b /\ ntor b' = ntor b.
Proof.
  intros H N. unfold register. replace (existsb _ l) with false.
  2:{ symmetry. apply not_true_is_false. intros X. apply existsb_exists in X as (s & I & X). specialize (H s I). unfold Rltb in X.
      apply orb_true_iff in X. destruct (Rlt_dec s 0), (Rlt_dec 1 s); try lra; destruct X; discriminate. }
  destruct (reg b) as [r|] eqn:Er; [|congruence]. eexists. split; [reflexivity|]. cbn. split; [auto|]. split.
  - intros s. unfold regs. cbn. rewrite Er. rewrite (proj1 (to_set_spec Reqb Reqb_true _)), in_app_iff. tauto.
  - split; [discriminate|auto].
Qed.
Lemma register_none (b : bz) l : (exists s, In s l /\ (s < 0 \/ 1 < s)) \/ reg b = None -> register b l = None.
Proof.
  unfold register. intros H. destruct (existsb _ l) eqn:X; [auto|]. destruct H as [(s & I & H)|H]; [|now rewrite H].
  exfalso. assert (existsb (fun s => Rltb s 0 || Rltb 1 s) l = true); [|congruence]. apply existsb_exists. exists s. split; auto.
  unfold Rltb. destruct (Rlt_dec s 0), (Rlt_dec 1 s); auto; lra.
Qed.
Lemma out_of_range l : {forall s : R, In s l -> 0 <= s <= 1} + {exists s, In s l /\ (s < 0 \/ 1 < s)}.
Proof.
  induction l as [|a l [IH|IH]]; [left; intros s []| |].
  - destruct (Rlt_dec a 0); [right; exists a; split; [left; auto|auto]|]. destruct (Rlt_dec 1 a); [right; exists a; split; [left; auto|auto]|].
    left. intros s [<-|I]; [lra|auto].
  - right. destruct IH as (s & I & H). exists s. split; [right; auto|auto].
Qed.

Variable e0 : option E.
Variables m0 n0 : nat.
Notation w0 := (e0, bnew m0 n0).

(** what the state of the object is after any history *)
Lemma state_spec h : let w := run w0 h in
  fst w = eq_after e0 h /\ (mpol (snd w), ntor (snd w)) = res_after (m0, n0) h /\
  (reg (snd w) <> None <-> a_set h) /\ (forall s, In s (regs (snd w)) <-> registered h s).
Proof.
  induction h as [|o h IH] using rev_ind.
  - cbn. split; [auto|split; [auto|]]. split; [split; [intros _; apply a_set_nil|discriminate]|]. unfold regs; cbn. intros s. split; [intros []|].
    intros (h1 & l & h2 & X & _); destruct h1; discriminate.
  - cbv zeta in *. rewrite run_snoc. destruct (run w0 h) as [eq b]. cbn [fst snd] in IH. destruct IH as (IE & IR & IS & IM).
    unfold eq_after, res_after in *. rewrite !fold_left_app, <- IE, <- IR. cbn [fold_left].
    rewrite a_set_snoc. setoid_rewrite registered_snoc. destruct o as [l| | |e|e|m n|s0]; cbn [bstep fst snd is_clear].
    + split; [auto|]. destruct (out_of_range l) as [In1|Out].
      2:{ rewrite register_none by auto. split; [auto|]. split; [rewrite IS; split; [intros; right; split; [discriminate|auto]|intros [?|[_ ?]]; [discriminate|auto]]|].
          intros s. rewrite IM. split; [auto|]. intros [[_ X]|(l' & [= <-] & _ & [A _])]; auto. destruct Out as (t & T1 & T2). specialize (A t T1). lra. }
      destruct (reg b) eqn:Er.
      * destruct (register_some b l In1) as (b' & -> & _ & Rg & Rn & Rm & Rt); [congruence|]. rewrite Rm, Rt. split; [auto|].
        assert (AS : a_set h) by (apply IS; discriminate). split; [split; [intros _; right; split; [discriminate|auto]|auto]|].
        intros s. rewrite Rg, IM. split; [intros [X|X]; [left; auto|right; exists l; split; [auto|split; [auto|split; auto]]]|]. intros [[_ X]|(l' & [= <-] & X & _)]; auto.
      * rewrite register_none by auto. split; [auto|]. rewrite Er. split; [split; [congruence|intros [?|[_ X]]; [discriminate|now apply IS in X]]|].
        intros s. rewrite IM. split; [auto|]. intros [[_ X]|(l' & _ & _ & [_ A])]; auto. apply IS in A. congruence.
    + split; [auto|split; [auto|]]. split; [split; [auto|discriminate]|]. intros s. unfold regs; cbn. split; [intros []|]. intros [[? _]|(l & ? & _)]; discriminate.
    + split; [auto|split; [auto|]]. split; [split; [cbn; congruence|intros [?|[? _]]; congruence]|]. intros s. unfold regs; cbn. split; [intros []|]. intros [[? _]|(l & ? & _)]; discriminate.
    + split; [auto|split; [auto|]]. split; [cbn; rewrite IS; split; [intros; right; split; [discriminate|auto]|intros [?|[_ ?]]; [discriminate|auto]]|].
      intros s. unfold regs in *; cbn. rewrite IM. split; [auto|]. intros [[_ X]|(l & ? & _)]; [auto|discriminate].
    + split; [auto|split; [auto|]]. split; [cbn; rewrite IS; split; [intros; right; split; [discriminate|auto]|intros [?|[_ ?]]; [discriminate|auto]]|].
      intros s. rewrite IM. split; [auto|]. intros [[_ X]|(l & ? & _)]; [auto|discriminate].
    + split; [auto|split; [auto|]]. split; [cbn; rewrite IS; split; [intros; right; split; [discriminate|auto]|intros [?|[_ ?]]; [discriminate|auto]]|].
      intros s. unfold regs in *; cbn. rewrite IM. split; [auto|]. intros [[_ X]|(l & ? & _)]; [auto|discriminate].
    + rewrite data_fetch. cbn [fst]. destruct (brun_keeps eq b) as (K1 & K2 & K3). split; [auto|]. rewrite K2, K3. split; [auto|].
      unfold regs. rewrite K1. split; [cbn; rewrite IS; split; [intros; right; split; [discriminate|auto]|intros [?|[_ ?]]; [discriminate|auto]]|].
      intros s. fold (regs b). rewrite IM. split; [auto|]. intros [[_ X]|(l & ? & _)]; [auto|discriminate].
Qed.

(** as long as nothing changes silently, a cached result is up to date *)
Lemma cache_spec h : forallb loud h = true -> let w := run w0 h in
  need (snd w) = false -> forall s, registered h s -> answer (eq_after e0 h) (m0, n0) s (fetch (snd w) s) /\ exists e, eq_after e0 h = Some e /\ (1 < ns e)%nat.
Proof.
  induction h as [|o h IH] using rev_ind; [discriminate|].
  intros L. rewrite forallb_app in L. apply andb_true_iff in L as [Lh Lo]. cbn in Lo. specialize (IH Lh).
  pose proof (state_spec h) as SS. cbv zeta in *. intros Nd s Rg. rewrite run_snoc in *.
  assert (RS : forall g : list (@op E), forallb loud g = true -> res_after (m0, n0) g = (m0, n0)).
  { intros g Hg. unfold res_after. induction g as [|x g IHg] using rev_ind; [auto|]. rewrite forallb_app in Hg. apply andb_true_iff in Hg as [Hg Hx].
    rewrite fold_left_app, IHg by auto. cbn in *. destruct x; auto; discriminate. }
  rewrite (RS h Lh) in SS.
  destruct (run w0 h) as [eq b]. cbn [fst snd] in *. destruct SS as (SE & [= SM SN] & SA & SG).
  rewrite registered_snoc in Rg. unfold eq_after in *. rewrite fold_left_app in *. cbn [fold_left].
  destruct o as [l| | |e|e|m n|s0]; cbn [bstep fst snd is_clear need] in *; try discriminate.
  - destruct (out_of_range l) as [I1|Out].
    + destruct (reg b) eqn:Er.
      * destruct (register_some b l I1) as (b' & Eb & Nb & _); [congruence|]. rewrite Eb in Nd. congruence.
      * rewrite register_none in Nd |- * by auto. apply IH; auto. destruct Rg as [[_ X]|(l' & _ & _ & _ & A)]; auto. now apply SA in A.
    + rewrite register_none in Nd |- * by auto. apply IH; auto. destruct Rg as [[_ X]|(l' & [= <-] & _ & A & _)]; auto. destruct Out as (t & T1 & T2). specialize (A t T1). lra.
  - destruct Rg as [[X _]|(l & X & _)]; discriminate.
  - destruct Rg as [[X _]|(l & X & _)]; discriminate.
  - rewrite data_fetch in Nd |- *. cbn [fst] in *. destruct Rg as [[_ Rg]|(l & X & _)]; [|discriminate].
    destruct (need b) eqn:Nb.
    + destruct eq as [e|]; [|unfold brun in Nd; rewrite Nb in Nd; cbn in Nd; congruence].
      destruct (Nat.leb_spec (ns e) 1) as [Le|Lt]; [unfold brun in Nd; rewrite Nb in Nd; cbn in Nd; replace (Nat.leb (ns e) 1) with true in Nd by (symmetry; apply Nat.leb_le; lia); cbn in Nd; congruence|].
      rewrite <- SE. split; [|eauto]. unfold answer. replace (Nat.leb (ns e) 1) with false by (symmetry; apply Nat.leb_gt; lia).
      destruct (fetch_fresh e b s Nb Lt) as (_ & _ & F & _). rewrite SM, SN in F. apply F. now apply SG.
    + unfold brun in *. rewrite Nb in *. cbn [negb fst] in *. apply IH; auto.
Qed.

Lemma get_answer h s r : (mpol (snd (run w0 h)), ntor (snd (run w0 h))) = r -> need (snd (run w0 h)) = true ->
  (registered h s -> answer (eq_after e0 h) r s (snd (data ns xform (fst (run w0 h)) (snd (run w0 h)) s))) /\
  (~ registered h s -> snd (data ns xform (fst (run w0 h)) (snd (run w0 h)) s) = None).
Proof.
  intros Hr Nd. pose proof (state_spec h) as SS. cbv zeta in SS. destruct (run w0 h) as [eq b]. cbn [fst snd] in *.
  destruct SS as (SE & _ & _ & SG). rewrite data_fetch. cbn [snd]. rewrite <- SE, <- SG. destruct eq as [e|].
  - destruct (Nat.leb_spec (ns e) 1) as [Le|Lt].
    + unfold answer. replace (Nat.leb (ns e) 1) with true by (symmetry; apply Nat.leb_le; lia). unfold brun. rewrite Nd. cbn [negb].
      replace (Nat.leb (ns e) 1) with true by (symmetry; apply Nat.leb_le; lia). cbn. auto.
    + destruct (fetch_fresh e b s Nd Lt) as (_ & _ & F1 & F2). unfold answer. replace (Nat.leb (ns e) 1) with false by (symmetry; apply Nat.leb_gt; lia).
      subst r. cbn [fst snd]. assert (snd (brun ns xform (Some e) b) = true) as ->. { unfold brun. rewrite Nd. cbn [negb]. replace (Nat.leb (ns e) 1) with false by (symmetry; apply Nat.leb_gt; lia). reflexivity. }
      auto.
  - unfold answer, brun. rewrite Nd. cbn. auto.
Qed.

(** * Theorems *)

(** After any history of registrations, clearings, changes of the equilibrium and earlier reads -- but without
    changes that are not announced -- the data of a registered surface is that of the nearest half-grid surface of
    the present equilibrium, whatever other surfaces are registered; and an exception if the equilibrium fails *)
Theorem C100_data_are_current : forall h s, forallb loud h = true -> registered h s ->
  answer (eq_after e0 h) (m0, n0) s (snd (data ns xform (fst (run w0 h)) (snd (run w0 h)) s)).
Proof.
  intros h s L Rg. destruct (need (snd (run w0 h))) eqn:Nd.
  - apply get_answer; auto. pose proof (state_spec h) as (_ & -> & _).
    unfold res_after. clear Rg Nd. induction h as [|x h IH] using rev_ind; [auto|]. rewrite forallb_app in L. apply andb_true_iff in L as [L1 L2].
    rewrite fold_left_app, IH by auto. cbn in *. destruct x; auto; discriminate.
  - destruct (cache_spec h L Nd s Rg) as [A _]. rewrite data_fetch. cbn [snd]. unfold brun at 1 2. rewrite Nd. cbn [negb fst snd]. exact A.
Qed.

(** When something announced its change (or a surface was registered) since the last run, unannounced changes are
    picked up too, and exactly the surfaces registered since the registry was last replaced can be read *)
Theorem C100_after_a_change : forall h o s, (exists e, o = Equil e) \/ (exists l, o = Register l /\ accepted h l) ->
  (registered (h ++ [o]) s -> answer (eq_after e0 (h ++ [o])) (res_after (m0, n0) h) s (snd (data ns xform (fst (run w0 (h ++ [o]))) (snd (run w0 (h ++ [o]))) s))) /\
  (~ registered (h ++ [o]) s -> snd (data ns xform (fst (run w0 (h ++ [o]))) (snd (run w0 (h ++ [o]))) s) = None).
Proof.
  intros h o s Ho. apply get_answer.
  - pose proof (state_spec (h ++ [o])) as (_ & -> & _). unfold res_after. rewrite fold_left_app. cbn. destruct Ho as [(e & ->)|(l & -> & _)]; reflexivity.
  - rewrite run_snoc. pose proof (state_spec h) as (_ & _ & SA & _). destruct (run w0 h) as [eq b]. destruct Ho as [(e & ->)|(l & -> & A1 & A2)]; cbn; [auto|].
    destruct (register_some b l A1) as (b' & -> & N & _); [now apply SA|auto].
Qed.

(** what the registry accepts *)
Theorem C100_register : forall h l, let b := snd (run w0 h) in
  (accepted h l -> exists b', register b l = Some b') /\ (~ accepted h l -> register b l = None).
Proof.
  intros h l b. pose proof (state_spec h) as (_ & _ & SA & _). fold b in SA. unfold accepted. split.
  - intros [A1 A2]. destruct (register_some b l A1) as (b' & -> & _); [now apply SA|eauto].
  - intros N. apply register_none. destruct (out_of_range l) as [I1|Out]; [|auto]. right. destruct (reg b) eqn:Er; [|auto]. exfalso. apply N. split; auto. apply SA. discriminate.
Qed.

(** After a successful read, nothing but an announced change or a registration has any effect: a new resolution, an
    unannounced change of the equilibrium and an emptied registry all leave every later read as it was *)
Definition unnoticed (o : @op E) : bool := match o with Silent _ | SetRes _ _ | ClearSet | ClearDict | Get _ => true | _ => false end.
Theorem C100_unnoticed : forall h s0 g s, snd (data ns xform (fst (run w0 h)) (snd (run w0 h)) s0) <> None -> forallb unnoticed g = true ->
  let w1 := run w0 (h ++ [Get s0]) in let w2 := run w0 (h ++ [Get s0] ++ g) in
  snd (data ns xform (fst w2) (snd w2) s) = snd (data ns xform (fst w1) (snd w1) s) /\ calls (snd w2) = calls (snd w1).
Proof.
  intros h s0 g s Ok Hg w1 w2. unfold w1, w2. clear w1 w2. rewrite app_assoc. unfold bruns at 1 2 5. rewrite (fold_left_app _ (h ++ [Get s0]) g).
  change (fold_left (bstep ns xform) (h ++ [Get s0]) w0) with (run w0 (h ++ [Get s0])).
  assert (N1 : need (snd (run w0 (h ++ [Get s0]))) = false).
  { rewrite run_snoc. destruct (run w0 h) as [eq b]. cbn in *. rewrite data_fetch in *. cbn [fst snd] in *.
    unfold brun in *. destruct (need b) eqn:Nb; cbn [negb] in *; [|auto]. destruct eq as [e|]; [|now destruct Ok]. destruct (Nat.leb (ns e) 1); [now destruct Ok|auto]. }
  set (w1 := run w0 (h ++ [Get s0])) in *. clearbody w1. clear Ok.
  assert (F : forall w : st, need (snd w) = false -> snd (data ns xform (fst w) (snd w) s) = fetch (snd w) s).
  { intros w N. rewrite data_fetch. unfold brun. rewrite N. reflexivity. }
  assert (K : forall g w, forallb unnoticed g = true -> need (snd w) = false ->
            need (snd (fold_left (bstep ns xform) g w)) = false /\ fetch (snd (fold_left (bstep ns xform) g w)) s = fetch (snd w) s /\ calls (snd (fold_left (bstep ns xform) g w)) = calls (snd w)).
  { clear g Hg. induction g as [|o g IH]; intros [eq b] Hg N; cbn [fold_left]; [auto|]. cbn in Hg. apply andb_true_iff in Hg as [Ho Hg].
    destruct (IH (bstep ns xform (eq, b) o) Hg) as (K1 & K2 & K3).
    - destruct o; cbn in *; auto; try discriminate. rewrite data_fetch. unfold brun. rewrite N. exact N.
    - rewrite K1, K2, K3. split; [auto|]. destruct o; cbn in *; auto; try discriminate. rewrite data_fetch. unfold brun. rewrite N. cbn. auto. }
  destruct (K g w1 Hg N1) as (K1 & K2 & K3). rewrite !F by auto. auto.
Qed.

(** A run transforms each needed surface once, in increasing order *)
Theorem C100_one_transform_per_surface : forall h, need (snd (run w0 h)) = true -> forall e, eq_after e0 h = Some e -> (1 < ns e)%nat ->
  exists l, bx (fst (brun ns xform (fst (run w0 h)) (snd (run w0 h)))) = map (xform e (fst (res_after (m0, n0) h)) (snd (res_after (m0, n0) h))) l /\
    StronglySorted Nat.lt l /\ forall j, In j l <-> exists s, registered h s /\ is_nearest (ns e) s j.
Proof.
  intros h Nd e Ee Hn. pose proof (state_spec h) as (SE & SR & _ & SG). rewrite SE, Ee, <- SR. unfold brun. rewrite Nd. cbn [negb].
  replace (Nat.leb (ns e) 1) with false by (symmetry; apply Nat.leb_gt; lia). cbn [fst snd bx]. eexists. split; [reflexivity|]. split; [apply surfaces_sorted|].
  intros j. rewrite surfaces_in by auto. setoid_rewrite sorted_in. fold (regs (snd (run w0 h))). now setoid_rewrite SG.
Qed.
End Thms.

(** The surface used is within half a grid spacing of the one asked for *)
Theorem C100_distance : forall n s j, (1 < n)%nat -> 0 <= s <= 1 -> is_nearest n s j -> Rabs (half n j - s) <= / (2 * INR (n - 1)).
Proof.
  intros n s j Hn Hs [Lj Hj]. assert (P : 0 < INR (n - 1)) by (apply lt_0_INR; lia).
  set (N := INR (n - 1)) in *.
  (* the surface whose cell contains s *)
  assert (exists i, (i < n - 1)%nat /\ INR i <= s * N <= INR i + 1) as (i & Li & Hi).
  { assert (G : forall k, s * N <= INR k -> (0 < k)%nat -> exists i, (i < k)%nat /\ INR i <= s * N <= INR i + 1).
    { induction k as [|k IH]; intros B K; [lia|]. rewrite S_INR in B. destruct (Rle_dec (INR k) (s * N)) as [L|L].
      - exists k. split; [lia|lra].
      - destruct k as [|k]; [cbn in L; exfalso; apply L; apply Rmult_le_pos; lra|]. destruct IH as (i & I1 & I2); [lra|lia|]. exists i. split; [lia|lra]. }
    apply G; [|lia]. unfold N. assert (s * INR (n - 1) <= 1 * INR (n - 1)) by (apply Rmult_le_compat_r; unfold N in P; lra). lra. }
  assert (B : Rabs (half n i - s) <= / (2 * N)).
  { unfold half. fold N. replace ((INR i + / 2) / N - s) with ((INR i + / 2 - s * N) * / N) by (field; lra).
    rewrite Rabs_mult, (Rabs_right (/ N)) by (left; now apply Rinv_0_lt_compat). rewrite Rinv_mult. apply Rmult_le_compat_r; [left; now apply Rinv_0_lt_compat|].
    apply Rabs_le. lra. }
  destruct (Hj i Li) as [H|[H _]]; lra.
Qed.

(** * A concrete case: ns = 11, surfaces 0.5, 0.52 and 0 registered; 0.5 lies between surfaces 4 and 5 and gets 4 *)
Example ex_half : half 11 4 = 0.45. Proof. unfold half. cbn. lra. Qed.
Example ex_nearest : is_nearest 11 (1/2) 4.
Proof.
  split; [lia|]. intros i Hi. unfold half.
  assert (C : (i < 4 \/ i = 4 \/ i = 5 \/ 5 < i)%nat) by lia. destruct C as [C|[->|[->|C]]].
  - left. apply lt_INR in C. cbn in C |- *. assert (0 <= INR i) by apply pos_INR. rewrite (Rabs_left1 (_ - _)), (Rabs_left1 (_ - 1/2)) by lra. lra.
  - right. split; auto.
  - right. split; [|lia]. cbn. rewrite Rabs_left1, Rabs_right by lra. lra.
  - left. apply lt_INR in C. cbn in C |- *. rewrite (Rabs_left1 (_ - _)), (Rabs_right (_ - 1/2)) by lra. lra.
Qed.
Example ex_registered : @registered unit [Register [1/2; 0.52]; Get (1/2); Register [0]; Equil None] 0.52.
Proof.
  exists [], [1/2; 0.52], [Get (1/2); Register [0]; Equil None]. split; [auto|]. split; [cbn; auto|]. split.
  - split; [intros s [<-|[<-|[]]]; lra|apply a_set_nil].
  - intros o [<-|[<-|[<-|[]]]]; reflexivity.
Qed.
(** after [boozer.s = {}], as the class documentation suggests, nothing can be registered any more *)
Theorem C100_documented_clearing_breaks_register : forall (E D : Type) ns (xf : E -> nat -> nat -> nat -> D) e0 m n h l,
  register (snd (bruns ns xf (e0, bnew m n) (h ++ [ClearDict]))) l = None.
Proof.
  intros. apply (C100_register ns xf e0 m n). intros [_ A]. specialize (A h [] eq_refl). destruct A.
Qed.
