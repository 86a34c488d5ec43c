(** Invariant of the dependency graph and the effect of the three traversals. *)
From Coq Require Import Sorting.Sorted.
From Verif Require Import ListAux DofsModel DofsSpec DofsProofs GraphModel GraphTrace GraphLists.

Section I.
Context {V : Type}.
Notation st := (@st V).
Implicit Types s : st.

(** ancestor relation: transitive closure of "is a parent of" *)
Inductive Anc s : nat -> nat -> Prop :=
| anc_par p a : In p (par s a) -> Anc s p a
| anc_step o p a : In p (par s a) -> Anc s o p -> Anc s o a.

Record GInv s : Prop := mkGInv {
  gi_par : forall a p, a < nobj s -> In p (par s a) -> p < nobj s;
  gi_chi : forall p c, p < nobj s -> (In c (chi s p) <-> c < nobj s /\ In p (par s c));
  gi_nd : forall a, a < nobj s -> NoDup (par s a);
  gi_nm : forall a b, a < nobj s -> b < nobj s -> nm s a = nm s b -> a = b;
  gi_dof : forall a, a < nobj s -> dof_of s a < ncell s;
  gi_wf : forall D, D < ncell s -> wf (cel s D) }.

Definition ranked s (rank : nat -> nat) := forall a p, a < nobj s -> In p (par s a) -> rank p < rank a.
Definition Acyc s := exists rank, ranked s rank.

Definition full_entry s a : finfo :=
  let anc := get_ancestors s a in
  let uniq := uniq_loop s [] (anc ++ [a]) in
  let sizes := map (fun o => dofs_len (cel s (dof_of s o))) uniq in
  mkF anc uniq (total sizes) (dict_zip s uniq (blocks 0 sizes)).
Definition free_entry s a : rinfo :=
  let uniq := f_uniq (full s a) in
  let sizes := map (fun o => reduced_len (cel s (dof_of s o))) uniq in
  mkR (total sizes) (dict_zip s uniq (blocks 0 sizes)).

Definition FullOK s := forall a, a < nobj s -> full s a = full_entry s a.
Definition FreeOK s := forall a, a < nobj s -> fre s a = free_entry s a.
Definition DepOK s := forall D, D < ncell s ->
  NoDup (dep s D) /\ forall o, In o (dep s D) <-> o < nobj s /\ dof_of s o = D.

Record Inv s : Prop := mkInv {
  inv_g : GInv s; inv_ac : Acyc s; inv_full : FullOK s; inv_free : FreeOK s; inv_dep : DepOK s }.

Lemma get_ancestors_ext s s' a :
  par s' a = par s a ->
  (forall p, In p (par s a) -> f_anc (full s' p) = f_anc (full s p)) ->
  (forall o, In o (par s a) -> nm s' o = nm s o) ->
  (forall p o, In p (par s a) -> In o (f_anc (full s p)) -> nm s' o = nm s o) ->
  get_ancestors s' a = get_ancestors s a.
Proof.
  intros Hp Ha Hn1 Hn2. unfold get_ancestors. rewrite Hp.
  assert (E0 : map (fun p => f_anc (full s' p)) (par s a) = map (fun p => f_anc (full s p)) (par s a))
    by (apply map_ext_in; auto).
  rewrite E0. set (l := concat _ ++ par s a).
  assert (Hl : forall o, In o l -> nm s' o = nm s o).
  { intros o Ho. unfold l in Ho. apply in_app_iff in Ho. destruct Ho as [Ho|Ho]; auto.
    apply in_concat in Ho. destruct Ho as (x & Hx & Ho). apply in_map_iff in Hx.
    destruct Hx as (p & <- & Hpp). eauto. }
  unfold dedup. rewrite (dedup_acc_ext s s') by auto.
  apply sort_ext. intros b Hb. apply Hl.
  assert (G : forall l acc x, In x (dedup_acc s acc l) -> In x acc \/ In x l).
  { clear. induction l as [|y l IH]; intros acc x Hx; cbn in Hx; auto.
    apply IH in Hx. destruct Hx as [Hx|Hx]; [|cbn; auto].
    destruct (memn s acc y); auto. apply in_app_iff in Hx. cbn in *; intuition. }
  apply G in Hb. destruct Hb as [[]|Hb]; auto.
Qed.

Lemma full_entry_ext s s' a :
  par s' a = par s a ->
  (forall p, In p (par s a) -> f_anc (full s' p) = f_anc (full s p)) ->
  (forall o, In o (par s a) -> nm s' o = nm s o) ->
  (forall p o, In p (par s a) -> In o (f_anc (full s p)) -> nm s' o = nm s o) ->
  (forall o, In o (get_ancestors s a ++ [a]) ->
     nm s' o = nm s o /\ dof_of s' o = dof_of s o /\
     dofs_len (cel s' (dof_of s o)) = dofs_len (cel s (dof_of s o))) ->
  full_entry s' a = full_entry s a.
Proof.
  intros H1 H2 H3 H4 H5. unfold full_entry. rewrite (get_ancestors_ext s s' a) by auto.
  rewrite (uniq_loop_ext s s') by (intros; now apply H5).
  set (u := uniq_loop s [] (get_ancestors s a ++ [a])).
  assert (Hu : forall o, In o u -> In o (get_ancestors s a ++ [a])) by (apply uniq_loop_spec).
  assert (E : map (fun o => dofs_len (cel s' (dof_of s' o))) u = map (fun o => dofs_len (cel s (dof_of s o))) u).
  { apply map_ext_in. intros o Ho. destruct (H5 o (Hu o Ho)) as (_ & E1 & E2). now rewrite E1, E2. }
  rewrite E. rewrite (dict_zip_ext s s') by (intros b Hb; now apply H5, Hu). reflexivity.
Qed.

Lemma free_entry_ext s s' a :
  f_uniq (full s' a) = f_uniq (full s a) ->
  (forall o, In o (f_uniq (full s a)) ->
     nm s' o = nm s o /\ dof_of s' o = dof_of s o /\
     reduced_len (cel s' (dof_of s o)) = reduced_len (cel s (dof_of s o))) ->
  free_entry s' a = free_entry s a.
Proof.
  intros H1 H2. unfold free_entry. rewrite H1. set (u := f_uniq (full s a)) in *.
  assert (E : map (fun o => reduced_len (cel s' (dof_of s' o))) u = map (fun o => reduced_len (cel s (dof_of s o))) u).
  { apply map_ext_in. intros o Ho. destruct (H2 o Ho) as (_ & E1 & E2). now rewrite E1, E2. }
  rewrite E. rewrite (dict_zip_ext s s') by (intros b Hb; now apply H2). reflexivity.
Qed.

Lemma full_local_eq s a : full_local s a = set_full s (fup (full s) a (full_entry s a)).
Proof. reflexivity. Qed.
Lemma free_local_eq s a : free_local s a = set_fre s (fup (fre s) a (free_entry s a)).
Proof. reflexivity. Qed.

Lemma set_full_id s : set_full s (full s) = s. Proof. destruct s; reflexivity. Qed.
Lemma set_fre_id s : set_fre s (fre s) = s. Proof. destruct s; reflexivity. Qed.
Lemma set_newx_id s : set_newx s (newx s) = s. Proof. destruct s; reflexivity. Qed.

Lemma fold_full tr s :
  fold_left full_local tr s =
  set_full s (fold_left (fstep (fun F d => full_entry (set_full s F) d)) tr (full s)).
Proof.
  assert (G : forall tr F, fold_left full_local tr (set_full s F) =
    set_full s (fold_left (fstep (fun F d => full_entry (set_full s F) d)) tr F)).
  { induction tr0 as [|a tr0 IH]; intros F; cbn [fold_left]; auto.
    rewrite full_local_eq. cbn [full set_full]. unfold fstep at 2. apply IH. }
  rewrite <- G. now rewrite set_full_id.
Qed.

Lemma free_entry_fre s F a : free_entry (set_fre s F) a = free_entry s a.
Proof. apply free_entry_ext; auto. Qed.

Lemma fold_free tr s :
  fold_left free_local tr s =
  set_fre s (fold_left (fstep (fun _ d => free_entry s d)) tr (fre s)).
Proof.
  assert (G : forall tr F, fold_left free_local tr (set_fre s F) =
    set_fre s (fold_left (fstep (fun _ d => free_entry s d)) tr F)).
  { induction tr0 as [|a tr0 IH]; intros F; cbn [fold_left]; auto.
    rewrite free_local_eq, free_entry_fre. unfold fstep at 2. apply IH. }
  rewrite <- G. now rewrite set_fre_id.
Qed.

Lemma fold_flag tr s :
  fold_left flag_local tr s = set_newx s (fold_left (fstep (fun _ _ => true)) tr (newx s)).
Proof.
  assert (G : forall tr F, fold_left flag_local tr (set_newx s F) =
    set_newx s (fold_left (fstep (fun _ _ => true)) tr F)).
  { induction tr0 as [|a tr0 IH]; intros F; cbn [fold_left]; auto.
    unfold flag_local at 2. unfold fstep at 2. apply IH. }
  rewrite <- G. now rewrite set_newx_id.
Qed.

(* entries only read parents *)
Lemma full_entry_full_ext s F F' d :
  (forall p, In p (par s d) -> F p = F' p) ->
  full_entry (set_full s F) d = full_entry (set_full s F') d.
Proof.
  intros H. apply full_entry_ext; cbn; auto. intros p Hp. now rewrite H.
Qed.

Section Upd.
Variable ord : list nat -> list nat.
Hypothesis ord_perm : forall l, Permutation (ord l) l.

Definition desc s a b := b = a \/ reachp (chi s) a b.

Lemma trace_desc s k a tr : trace ord (chi s) k a = Some tr -> forall b, In b tr <-> desc s a b.
Proof.
  intros H b. split; [eapply trace_sound; eauto | eapply trace_complete; eauto].
Qed.

Lemma desc_lt s a b : GInv s -> a < nobj s -> desc s a b -> b < nobj s.
Proof.
  intros G Ha [->|R]; auto. induction R as [a b Hb|a b c Hb R IH].
  - apply (gi_chi s G a b Ha) in Hb. tauto.
  - apply IH. apply (gi_chi s G a b Ha) in Hb. tauto.
Qed.

Lemma update_full_spec k s a s' : GInv s -> a < nobj s -> update_full ord k s a = Some s' ->
  s' = set_full s (full s') /\
  (forall b, ~ desc s a b -> full s' b = full s b) /\
  (forall b, desc s a b -> full s' b = full_entry s' b) /\
  (forall x, desc s a x -> ~ reachp (chi s) x x) /\
  (exists tr, trace ord (chi s) k a = Some tr).
Proof.
  intros G Ha H. unfold update_full in H. rewrite visit_trace in H by reflexivity.
  destruct (trace ord (chi s) k a) as [tr|] eqn:E; [|discriminate]. injection H as <-.
  assert (HD := trace_desc s k a tr E).
  rewrite fold_full. cbn [full set_full].
  split; [reflexivity|]. split; [|split; [|split]].
  - intros b Hb. apply fold_out. now rewrite HD.
  - intros b Hb. apply HD in Hb.
    apply (fold_in (par s) (fun F d => full_entry (set_full s F) d)); auto.
    + intros F F' d HF. now apply full_entry_full_ext.
    + intros l1 p l2 d E2 Hp Hd.
      apply (trace_followed ord ord_perm _ _ _ _ E l1 p l2 d E2).
      assert (Hd' := proj1 (HD d) Hd). assert (Hlt := desc_lt s a d G Ha Hd').
      apply (gi_chi s G); auto. eapply gi_par; eauto.
  - intros x Hx. eapply trace_acyclic; eauto. now apply HD.
  - eauto.
Qed.

Lemma update_free_spec k s a s' : update_free ord k s a = Some s' ->
  s' = set_fre s (fre s') /\
  (forall b, ~ desc s a b -> fre s' b = fre s b) /\
  (forall b, desc s a b -> fre s' b = free_entry s b) /\
  (forall b, desc s a b \/ ~ desc s a b).
Proof.
  intros H. unfold update_free in H. rewrite visit_trace in H by reflexivity.
  destruct (trace ord (chi s) k a) as [tr|] eqn:E; [|discriminate]. injection H as <-.
  assert (HD := trace_desc s k a tr E).
  rewrite fold_free. cbn [fre set_fre].
  split; [reflexivity|]. split; [|split; [|intros b; rewrite <- HD; destruct (in_dec Nat.eq_dec b tr); auto]].
  - intros b Hb. apply fold_out. now rewrite HD.
  - intros b Hb. apply HD in Hb.
    apply (fold_in (fun _ => []) (fun _ d => free_entry s d)); auto. intros l1 p l2 d _ [].
Qed.

Lemma set_flag_spec k s a s' : set_flag ord k s a = Some s' ->
  s' = set_newx s (newx s') /\
  (forall b, ~ desc s a b -> newx s' b = newx s b) /\
  (forall b, desc s a b -> newx s' b = true) /\
  (forall b, desc s a b \/ ~ desc s a b).
Proof.
  intros H. unfold set_flag in H. rewrite visit_trace in H by reflexivity.
  destruct (trace ord (chi s) k a) as [tr|] eqn:E; [|discriminate]. injection H as <-.
  assert (HD := trace_desc s k a tr E).
  rewrite fold_flag. cbn [newx set_newx].
  split; [reflexivity|]. split; [|split; [|intros b; rewrite <- HD; destruct (in_dec Nat.eq_dec b tr); auto]].
  - intros b Hb. apply fold_out. now rewrite HD.
  - intros b Hb. apply HD in Hb.
    rewrite (fold_in (fun _ => []) (fun _ _ => true)); auto. intros l1 p l2 d _ [].
Qed.

(** decidability of being a descendant, once a traversal has completed *)
Lemma desc_dec s k a tr : trace ord (chi s) k a = Some tr -> forall b, {desc s a b} + {~ desc s a b}.
Proof.
  intros E b. destruct (in_dec Nat.eq_dec b tr) as [H|H].
  - left. now apply (trace_desc s k a tr E).
  - right. now rewrite <- (trace_desc s k a tr E).
Qed.

Lemma max_bound (l : list nat) (f : nat -> nat) : exists M, forall x, In x l -> f x <= M.
Proof.
  induction l as [|a l (M & HM)]; [exists 0; intros x []|].
  exists (f a + M). intros x [<-|Hx]; [lia|]. specialize (HM x Hx). lia.
Qed.

(** the effect of the three traversals run one after the other *)
Lemma refresh_spec k s a s' e (rank : nat -> nat) :
  GInv s -> a < nobj s ->
  (forall b p, b < nobj s -> b <> a -> In p (par s b) -> rank p < rank b) ->
  (forall b, b < nobj s -> ~ desc s a b -> full s b = full_entry s b /\ fre s b = free_entry s b) ->
  refresh ord k s a = Some (s', e) ->
  e = None /\ GInv s' /\ Acyc s' /\ FullOK s' /\ FreeOK s' /\
  s' = set_newx (set_fre (set_full s (full s')) (fre s')) (newx s') /\
  (forall b, ~ desc s a b -> full s' b = full s b /\ fre s' b = fre s b /\ newx s' b = newx s b) /\
  (forall b, desc s a b -> newx s' b = true) /\
  (forall b, desc s a b \/ ~ desc s a b).
Proof.
  intros G Ha Hrank Hok H. unfold refresh in H.
  destruct (update_full ord k s a) as [s1|] eqn:E1; [|discriminate]. cbn [bindo] in H.
  destruct (update_free ord k s1 a) as [s2|] eqn:E2; [|discriminate]. cbn [bindo] in H.
  destruct (set_flag ord k s2 a) as [s3|] eqn:E3; [|discriminate]. cbn [bindo ret] in H.
  injection H as <- <-.
  destruct (update_full_spec k s a s1 G Ha E1) as (H1 & H1n & H1d & Hacy & (tr & Etr)).
  apply update_free_spec in E2. destruct E2 as (H2 & H2n & H2d & _).
  apply set_flag_spec in E3. destruct E3 as (H3 & H3n & H3d & _).
  assert (C1 : chi s1 = chi s) by (rewrite H1; reflexivity).
  assert (C2 : chi s2 = chi s) by (rewrite H2, H1; reflexivity).
  assert (D1 : forall b, desc s1 a b <-> desc s a b) by (intros b; unfold desc; now rewrite C1).
  assert (D2 : forall b, desc s2 a b <-> desc s a b) by (intros b; unfold desc; now rewrite C2).
  assert (F3 : full s3 = full s1) by (rewrite H3, H2; reflexivity).
  assert (R3 : fre s3 = fre s2) by (rewrite H3; reflexivity).
  assert (Dec := desc_dec s k a tr Etr).
  assert (Shape : s3 = set_newx (set_fre (set_full s (full s3)) (fre s3)) (newx s3)).
  { rewrite F3, R3. rewrite H3 at 1. rewrite H2 at 1. rewrite H1 at 1. reflexivity. }
  split; [reflexivity|]. split.
  { destruct G as [G1 G2 G3 G4 G5 G6]. constructor; rewrite Shape; assumption. }
  split.
  { (* acyclicity *)
    destruct (max_bound (par s a) rank) as (M & HM).
    exists (fun b => if Dec b then rank b + M + 1 else rank b).
    intros b p Hb Hp. rewrite Shape in Hb, Hp. cbn in Hb, Hp.
    assert (Hplt : p < nobj s) by (eapply gi_par; eauto).
    assert (Hc : In b (chi s p)) by (apply (gi_chi s G); auto).
    assert (Clos : desc s a p -> desc s a b).
    { intros [->|R]; right; [now apply rp_one| eapply reachp_snoc; eauto]. }
    destruct (Dec p) as [Dp|Dp], (Dec b) as [Db|Db].
    - destruct (Nat.eq_dec b a) as [->|Nb].
      + exfalso. apply (Hacy a); [now left|].
        destruct Dp as [->|R]; [now apply rp_one| eapply reachp_snoc; eauto].
      + assert (rank p < rank b) by auto. lia.
    - exfalso; auto.
    - destruct (Nat.eq_dec b a) as [->|Nb].
      + specialize (HM p Hp). lia.
      + assert (rank p < rank b) by auto. lia.
    - apply Hrank; auto. intros ->. apply Db. now left. }
  split.
  { intros b Hb. rewrite Shape in Hb. cbn in Hb. rewrite F3.
    assert (EE : full_entry s3 b = full_entry s1 b) by (rewrite H3, H2; apply full_entry_ext; auto).
    rewrite EE. destruct (Dec b) as [Db|Db]; [auto|].
    rewrite H1n by auto. destruct (Hok b Hb Db) as [Hf _]. rewrite Hf at 1.
    rewrite <- (set_full_id s) at 1. rewrite H1. apply full_entry_full_ext.
    intros p Hp. symmetry. apply H1n. intros Dp. apply Db.
    assert (In b (chi s p)) by (apply (gi_chi s G); [eapply gi_par; eauto|auto]).
    destruct Dp as [->|R]; right; [now apply rp_one| eapply reachp_snoc; eauto]. }
  split.
  { intros b Hb. rewrite Shape in Hb. cbn in Hb. rewrite R3.
    assert (EE : free_entry s3 b = free_entry s1 b) by (rewrite H3, H2; apply free_entry_ext; auto).
    rewrite EE. destruct (Dec b) as [Db|Db]; [apply H2d; now apply D1|].
    rewrite H2n by (now rewrite D1).
    assert (Er : fre s1 = fre s) by (rewrite H1; reflexivity). rewrite Er.
    destruct (Hok b Hb Db) as [_ Hf]. rewrite Hf. symmetry. apply free_entry_ext.
    - now rewrite H1n.
    - intros o _. rewrite H1. auto. }
  split; [exact Shape|]. split; [|split; [|intros b; destruct (Dec b); auto]].
  - intros b Db. rewrite F3, R3. rewrite H1n by auto. rewrite H2n by (now rewrite D1).
    rewrite H3n by (now rewrite D2). rewrite H2, H1. auto.
  - intros b Db. apply H3d. now apply D2.
Qed.
End Upd.

(** ** Meaning of the cached ancestor list *)
Lemma inj_on_lt s l : GInv s -> (forall x, In x l -> x < nobj s) -> inj_on s l.
Proof. intros G H a b Ha Hb. apply (gi_nm s G); auto. Qed.

Lemma Anc_lt s o a : GInv s -> a < nobj s -> Anc s o a -> o < nobj s.
Proof.
  intros G Ha H. induction H as [p a Hp|o p a Hp H IH].
  - eapply gi_par; eauto.
  - apply IH. eapply gi_par; eauto.
Qed.

Lemma Anc_reachp s o a : GInv s -> a < nobj s -> Anc s o a -> reachp (chi s) o a.
Proof.
  intros G Ha H. induction H as [p a Hp|o p a Hp H IH].
  - apply rp_one. apply (gi_chi s G); auto. eapply gi_par; eauto.
  - assert (p < nobj s) by (eapply gi_par; eauto).
    eapply reachp_snoc; [apply IH; auto|]. apply (gi_chi s G); auto.
Qed.

Lemma Anc_trans s o p a : Anc s o p -> Anc s p a -> Anc s o a.
Proof. intros H1 H2. induction H2; eapply anc_step; eauto. Qed.

Lemma reachp_Anc s o a : GInv s -> o < nobj s -> reachp (chi s) o a -> Anc s o a.
Proof.
  intros G Ho R. induction R as [a b Hb|a b c Hb R IH].
  - apply (gi_chi s G a b Ho) in Hb. now apply anc_par.
  - apply (gi_chi s G a b Ho) in Hb. eapply Anc_trans; [|apply IH; tauto]. now apply anc_par.
Qed.

Lemma get_ancestors_In s a : GInv s -> a < nobj s ->
  (forall p o, In p (par s a) -> In o (f_anc (full s p)) -> o < nobj s) ->
  NoDup (get_ancestors s a) /\
  (forall o, In o (get_ancestors s a) <->
     (exists p, In p (par s a) /\ (o = p \/ In o (f_anc (full s p))))).
Proof.
  intros G Ha Hlt. unfold get_ancestors.
  set (l := concat (map (fun p => f_anc (full s p)) (par s a)) ++ par s a).
  assert (Hl : forall o, In o l <-> exists p, In p (par s a) /\ (o = p \/ In o (f_anc (full s p)))).
  { intros o. unfold l. rewrite in_app_iff, in_concat. split.
    - intros [(x & Hx & Ho)|Ho]; [|eauto]. apply in_map_iff in Hx. destruct Hx as (p & <- & Hp). eauto.
    - intros (p & Hp & [->|Ho]); auto. left. exists (f_anc (full s p)). split; auto.
      apply in_map_iff; eauto. }
  assert (Hb : forall x, In x l -> x < nobj s).
  { intros x Hx. apply Hl in Hx. destruct Hx as (p & Hp & [->|Ho]); eauto. eapply gi_par; eauto. }
  destruct (dedup_spec s l (inj_on_lt s l G Hb)) as [H1 H2].
  split.
  - eapply Permutation_NoDup; [symmetry; apply sort_perm|]; auto.
  - intros o. rewrite <- Hl, <- H2. split; intros H.
    + eapply Permutation_in; [apply (sort_perm s)|]; eauto.
    + eapply Permutation_in; [symmetry; apply (sort_perm s)|]; eauto.
Qed.

Lemma anc_char s : GInv s -> Acyc s -> FullOK s -> forall a, a < nobj s ->
  NoDup (ancestors s a) /\ (forall o, In o (ancestors s a) <-> Anc s o a) /\
  (forall o, In o (ancestors s a) -> o < nobj s).
Proof.
  intros G (rank & Hr) F.
  assert (IH : forall n a, rank a < n -> a < nobj s ->
    NoDup (ancestors s a) /\ (forall o, In o (ancestors s a) <-> Anc s o a)).
  { induction n as [|n IH]; intros a Hn Ha; [lia|].
    unfold ancestors. rewrite (F a Ha). cbn [f_anc full_entry].
    destruct (get_ancestors_In s a G Ha) as [H1 H2].
    - intros p o Hp Ho. assert (Hpl := gi_par s G a p Ha Hp). assert (Hrp := Hr a p Ha Hp).
      destruct (IH p ltac:(lia) Hpl) as [_ K]. unfold ancestors in K. apply K in Ho.
      eapply Anc_lt; eauto.
    - split; auto. intros o. rewrite H2. split.
      + intros (p & Hp & [->|Ho]); [now apply anc_par|].
        assert (Hpl := gi_par s G a p Ha Hp). assert (Hrp := Hr a p Ha Hp).
        destruct (IH p ltac:(lia) Hpl) as [_ K]. unfold ancestors in K. apply K in Ho.
        eapply anc_step; eauto.
      + intros H. inversion H as [p a' Hp|o' p a' Hp Ho]; subst; [eauto|].
        exists p; split; auto. right.
        assert (Hpl := gi_par s G a p Ha Hp). assert (Hrp := Hr a p Ha Hp).
        destruct (IH p ltac:(lia) Hpl) as [_ K]. unfold ancestors in K. now apply K. }
  intros a Ha. destruct (IH (S (rank a)) a ltac:(lia) Ha) as [H1 H2]. repeat split; auto; try apply H2.
  intros o Ho. eapply Anc_lt; eauto. now apply H2.
Qed.

Lemma anc_irrefl s : GInv s -> Acyc s -> forall a, a < nobj s -> ~ Anc s a a.
Proof.
  intros G (rank & Hr) a Ha H.
  assert (K : forall o b, Anc s o b -> b < nobj s -> rank o < rank b).
  { induction 1 as [p b Hp|o p b Hp H0 IH]; intros Hb; [apply Hr; auto|].
    assert (p < nobj s) by (eapply gi_par; eauto). specialize (IH H1). specialize (Hr b p Hb Hp). lia. }
  specialize (K a a H Ha). lia.
Qed.
End I.
