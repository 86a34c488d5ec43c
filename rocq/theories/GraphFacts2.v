(** More facts on the graph: edits of parents, termination, status operations, cached evaluation. *)
From Coq Require Import Sorting.Sorted.
From Verif Require Import ListAux DofsModel DofsSpec DofsProofs GraphModel GraphTrace GraphLists GraphInv GraphSpec GraphPres GraphPres2 GraphPres3 GraphFacts.

Section T.
Variable ord : list nat -> list nat.
Hypothesis ord_perm : any_order ord.

Lemma trace_terminates_on ch (P : nat -> Prop) (rank : nat -> nat) N :
  (forall p c, P p -> In c (ch p) -> P c /\ rank p < rank c) -> (forall c, P c -> rank c <= N) ->
  forall k a, P a -> N - rank a < k -> exists tr, trace ord ch k a = Some tr.
Proof.
  intros Hr HN k; induction k as [|k IH]; intros a Pa Hk; [lia|]. cbn.
  assert (G : forall l, (forall c, In c l -> In c (ch a)) -> exists t, concat_opt (map (trace ord ch k) l) = Some t).
  { induction l as [|c l IHl]; intros Hl; cbn; [eauto|].
    destruct (Hr a c Pa (Hl c (or_introl eq_refl))) as [Pc Hc]. assert (Hc2 := HN c Pc).
    destruct (IH c Pc ltac:(lia)) as (t & ->).
    destruct IHl as (t2 & ->); [intros; apply Hl; now right|]. eauto. }
  destruct (G (ord (ch a))) as (t & ->); [|eauto].
  intros c Hc. eapply Permutation_in; [apply ord_perm|]; auto.
Qed.
End T.

(** any rank on [n] points can be compressed to one below [n] *)
Lemma compress_rank (rank : nat -> nat) n : exists r2 : nat -> nat,
  (forall a, a < n -> r2 a < n) /\ (forall a b, a < n -> rank a < rank b -> r2 a < r2 b).
Proof.
  exists (fun a => length (filter (fun b => rank b <? rank a) (seq 0 n))). split.
  - intros a Ha.
    assert (H : In a (seq 0 n)) by (apply in_seq; lia). apply in_split in H. destruct H as (l1 & l2 & E).
    rewrite <- (seq_length n 0) at 2. rewrite E. rewrite filter_app. cbn.
    rewrite Nat.ltb_irrefl. rewrite !app_length. cbn.
    assert (F : forall f (l : list nat), length (filter f l) <= length l).
    { intros f l; induction l as [|x l IH]; cbn; auto. destruct (f x); cbn; lia. }
    assert (F1 := F (fun b => rank b <? rank a) l1). assert (F2 := F (fun b => rank b <? rank a) l2). lia.
  - intros a b Ha Hab.
    assert (H : In a (seq 0 n)) by (apply in_seq; lia). apply in_split in H. destruct H as (l1 & l2 & ->).
    rewrite !filter_app. cbn. rewrite Nat.ltb_irrefl. rewrite (proj2 (Nat.ltb_lt _ _) Hab).
    rewrite !app_length. cbn.
    assert (F : forall (l : list nat), length (filter (fun x => rank x <? rank a) l) <= length (filter (fun x => rank x <? rank b) l)).
    { induction l as [|x l IH]; cbn; auto.
      destruct (Nat.ltb_spec (rank x) (rank a)), (Nat.ltb_spec (rank x) (rank b)); cbn; lia. }
    assert (F1 := F l1). assert (F2 := F l2). lia.
Qed.

Section P.
Context {V : Type}.
Notation st := (@st V).
Implicit Types s : st.

Section WithOrd.
Variables (ord : list nat -> list nat) (k : nat).
Hypothesis ord_perm : any_order ord.

(** ** termination *)
Lemma trace_returns s a : GInv s -> Acyc s -> a < nobj s -> nobj s <= k -> exists tr, trace ord (chi s) k a = Some tr.
Proof.
  intros G (rank & Hr) Ha Hk. destruct (compress_rank rank (nobj s)) as (r2 & H1 & H2).
  apply (trace_terminates_on ord ord_perm (chi s) (fun x => x < nobj s) r2 (nobj s - 1)); auto.
  - intros p c Hp Hc. apply (gi_chi s G p c Hp) in Hc. destruct Hc as [Hc Hin]. split; auto.
  - intros c Hc. specialize (H1 c Hc). lia.
  - specialize (H1 a Ha). lia.
Qed.

Lemma fold_chi (f : st -> nat -> st) : (forall s a, chi (f s a) = chi s) -> forall tr s, chi (fold_left f tr s) = chi s.
Proof. intros Hf tr; induction tr as [|x tr IH]; intros s; cbn; auto. now rewrite IH, Hf. Qed.

Lemma visit_returns (f : st -> nat -> st) s a : (forall s a, chi (f s a) = chi s) ->
  GInv s -> Acyc s -> a < nobj s -> nobj s <= k -> exists s', visit ord f k s a = Some s' /\ chi s' = chi s.
Proof.
  intros Hf G A Ha Hk. destruct (trace_returns s a G A Ha Hk) as (tr & E).
  rewrite visit_trace by auto. rewrite E. eexists; split; [reflexivity|]. now apply fold_chi.
Qed.

Lemma refresh_returns s a : GInv s -> Acyc s -> a < nobj s -> nobj s <= k ->
  exists s', refresh ord k s a = Some (s', None).
Proof.
  intros G A Ha Hk. destruct (trace_returns s a G A Ha Hk) as (tr & E).
  unfold refresh, update_full, update_free, set_flag.
  rewrite visit_trace by reflexivity. rewrite E. cbn [bindo].
  rewrite visit_trace by reflexivity. rewrite fold_chi by reflexivity. rewrite E. cbn [bindo].
  rewrite visit_trace by reflexivity. rewrite !fold_chi by reflexivity. rewrite E. cbn. eauto.
Qed.

(** adding the edge [p -> a] keeps the graph acyclic unless [p] is [a] or a descendant of it *)
Lemma add_edge_acyc s a p P C : Inv s -> a < nobj s -> p < nobj s -> p <> a -> ~ Anc s a p ->
  (forall x, In x P -> x = p \/ In x (par s a)) -> Acyc (set_chi (set_par s (fup (par s) a P)) C).
Proof.
  intros I Ha Hp Npa NA HP. assert (G := inv_g s I). destruct (inv_ac s I) as (rank & Hr).
  set (below := fun b => existsb (Nat.eqb a) (ancestors s b ++ [b])).
  assert (Hb : forall b, b < nobj s -> (below b = true <-> a = b \/ Anc s a b)).
  { intros b Hbl. unfold below. rewrite existsb_eqb_In. now apply lineage_Anc. }
  exists (fun b => if below b then rank b + S (rank p) else rank b).
  intros b q Hbl Hq. cbn in Hbl, Hq. unfold fup in Hq. destruct (Nat.eqb_spec b a) as [->|N].
  - rewrite (proj2 (Hb a Ha)) by auto. apply HP in Hq. destruct Hq as [->|Hq].
    + destruct (below p) eqn:E; [|lia]. apply Hb in E; auto. destruct E; [congruence|tauto].
    + assert (Hql : q < nobj s) by (eapply gi_par; eauto). specialize (Hr a q Ha Hq).
      destruct (below q) eqn:E; [|lia]. apply Hb in E; auto. exfalso.
      apply (anc_irrefl s G (inv_ac s I) a Ha). destruct E as [<-|E]; [now apply anc_par|].
      eapply Anc_trans; eauto. now apply anc_par.
  - assert (Hql : q < nobj s) by (eapply gi_par; eauto). specialize (Hr b q Hbl Hq).
    destruct (below q) eqn:E.
    + apply Hb in E; auto. rewrite (proj2 (Hb b Hbl)); [lia|]. right.
      destruct E as [<-|E]; [now apply anc_par|]. eapply anc_step; eauto.
    + destruct (below b); lia.
Qed.

(** the state handed to [refresh] by add_parent *)
Lemma add_parent_cases s a i p : Inv s -> a < nobj s -> p < nobj s ->
  (In p (par s a) /\ add_parent ord k s a i p = Some (s, None)) \/
  (~ In p (par s a) /\ exists C,
     let s1 := set_chi (set_par s (fup (par s) a (py_insert i p (par s a)))) C in
     add_parent ord k s a i p = refresh ord k s1 a /\ GInv s1).
Proof.
  intros I Ha Hp. assert (G := inv_g s I). unfold add_parent. destruct (memn s (par s a) p) eqn:E.
  - left. split; auto. apply memn_spec in E. destruct E as (b & Hb & En).
    assert (b = p) by (apply (gi_nm s G); auto; exact (gi_par s G a b Ha Hb)). now subst.
  - assert (Np : ~ In p (par s a)).
    { intros Hi. assert (memn s (par s a) p = true); [|congruence]. apply memn_spec. eauto. }
    right. split; auto.
    destruct (py_insert_spec i p (par s a)) as (l1 & l2 & El & Ei).
    set (P := py_insert i p (par s a)) in *.
    assert (HP : forall x, In x P <-> x = p \/ In x (par s a)).
    { intros x. rewrite Ei, El, !in_app_iff. cbn. intuition auto. }
    unfold add_child. change (memn (set_par s (fup (par s) a P)) (chi (set_par s (fup (par s) a P)) p) a)
      with (memn s (chi s p) a).
    assert (Nc : memn s (chi s p) a = false).
    { destruct (memn s (chi s p) a) eqn:E2; auto. apply memn_spec in E2. destruct E2 as (b & Hb & En).
      assert (b = a) by (apply (gi_nm s G); auto; eapply chi_lt; eauto). subst b.
      apply (gi_chi s G p a Hp) in Hb. tauto. }
    rewrite Nc. eexists. split; [reflexivity|].
    destruct G as [G1 G2 G3 G4 G5 G6]. constructor; cbn; auto.
    + intros b q Hb Hq. unfold fup in Hq. destruct (Nat.eqb_spec b a); [|eauto].
      apply HP in Hq. destruct Hq as [->|Hq]; auto. subst; eauto.
    + intros q c Hq. unfold fup. destruct (Nat.eqb_spec q p) as [->|Nq]; destruct (Nat.eqb_spec c a) as [->|Nca].
      * rewrite in_app_iff. cbn. rewrite HP. tauto.
      * rewrite in_app_iff. cbn. rewrite <- (G2 p c Hp). intuition. congruence.
      * rewrite HP, (G2 q a Hq). tauto.
      * apply G2; auto.
    + intros b Hb. unfold fup. destruct (Nat.eqb_spec b a) as [->|]; auto.
      rewrite Ei. apply NoDup_Add with (a := p) (l := l1 ++ l2).
      * apply Add_app.
      * rewrite <- El. split; auto.
Qed.

Lemma add_parent_returns s a i p : Inv s -> a < nobj s -> p < nobj s -> p <> a -> ~ Anc s a p -> nobj s <= k ->
  exists s', add_parent ord k s a i p = Some (s', None).
Proof.
  intros I Ha Hp Npa NA Hk. destruct (add_parent_cases s a i p I Ha Hp) as [[_ ->]|(Np & C & -> & G1)]; eauto.
  apply refresh_returns; auto. eapply add_edge_acyc; eauto.
  intros x Hx. destruct (py_insert_spec i p (par s a)) as (l1 & l2 & El & Ei).
  rewrite Ei in Hx. rewrite El. rewrite in_app_iff in *. cbn in Hx. intuition.
Qed.

Lemma add_parent_effect s a i p s' e : Inv s -> a < nobj s -> p < nobj s ->
  add_parent ord k s a i p = Some (s', e) ->
  e = None /\ (forall b, b <> a -> par s' b = par s b) /\
  ((In p (par s a) /\ s' = s) \/ (~ In p (par s a) /\ par s' a = py_insert i p (par s a) /\ cel s' = cel s /\
    dof_of s' = dof_of s /\ (forall b, b < nobj s -> b = a \/ Anc s' a b -> newx s' b = true))).
Proof.
  intros I Ha Hp H. destruct (add_parent_cases s a i p I Ha Hp) as [[Hi E]|(Np & C & E & G1)]; rewrite E in H.
  - injection H as <- <-. auto.
  - assert (H2 := H). apply edge_change_step in H2; auto. destruct H2 as (S1 & He & Hs).
    split; auto. split; [intros b Hb; rewrite Hs; cbn; now apply fup_other|]. right.
    split; auto. split; [rewrite Hs; cbn; apply fup_same|]. split; [rewrite Hs; reflexivity|].
    split; [rewrite Hs; reflexivity|]. intros b Hb Hd.
    destruct S1 as (I' & _ & _ & Hn & _).
    destruct (inv_ac s I) as (rank & Hr).
    set (s1 := set_chi _ C) in *.
    apply (refresh_spec ord ord_perm k s1 a s' e rank) in H; auto.
    + destruct H as (_ & _ & _ & _ & _ & _ & _ & Hfl & _). apply Hfl.
      assert (Hdd : desc s' a b) by (apply desc_Anc; auto; [rewrite Hn; auto|rewrite Hn; auto]).
      unfold desc in *. rewrite Hs in Hdd. exact Hdd.
    + intros b' q Hb' Nb Hq. apply Hr; auto. cbn in Hq. now rewrite fup_other in Hq.
    + intros b' Hb' Nd. assert (b' <> a) by (intros ->; apply Nd; now left). split.
      * change (full s1 b') with (full s b'). rewrite (inv_full s I b' Hb'). symmetry.
        apply full_entry_ext; auto. cbn. now apply fup_other.
      * change (fre s1 b') with (fre s b'). rewrite (inv_free s I b' Hb'). symmetry.
        apply free_entry_ext; auto.
Qed.

Lemma Anc_mono s s' : (forall b p, In p (par s b) -> In p (par s' b)) -> forall o a, Anc s o a -> Anc s' o a.
Proof. intros H o a A. induction A; [apply anc_par; auto|eapply anc_step; eauto]. Qed.

Lemma add_parent_cycle s a i p : Inv s -> a < nobj s -> p < nobj s -> ~ In p (par s a) ->
  p = a \/ Anc s a p -> add_parent ord k s a i p = None.
Proof.
  intros I Ha Hp Np Hc. destruct (add_parent ord k s a i p) as [[s' e]|] eqn:E; auto. exfalso.
  assert (S1 := add_parent_step ord k ord_perm s a i p s' e I Ha Hp E).
  apply add_parent_effect in E; auto. destruct E as (He & Ho & [[? _]|(_ & Hpa & _)]); [tauto|].
  destruct S1 as (I' & _ & _ & Hn & _).
  destruct (py_insert_spec i p (par s a)) as (l1 & l2 & El & Ei).
  assert (Hin : In p (par s' a)) by (rewrite Hpa, Ei; apply in_elt).
  apply (anc_irrefl s' (inv_g _ I') (inv_ac _ I') a); [lia|].
  destruct Hc as [->|Hc]; [now apply anc_par|].
  eapply anc_step; eauto. eapply Anc_mono; [|exact Hc].
  intros b q Hq. destruct (Nat.eq_dec b a) as [->|N]; [|now rewrite Ho].
  rewrite Hpa, Ei. rewrite El in Hq. rewrite in_app_iff in *. cbn. tauto.
Qed.

Lemma drop_parent_effect s a p l1 l2 : Inv s -> a < nobj s ->
  par s a = l1 ++ p :: l2 -> nobj s <= k ->
  exists s', drop_child_and_refresh ord k (set_par s (fup (par s) a (l1 ++ l2))) a p = Some (s', None).
Proof.
  intros I Ha El Hk. assert (G := inv_g s I).
  assert (Hp : p < nobj s) by (apply (gi_par s G a p Ha); rewrite El; apply in_elt).
  assert (Hin : In p (par s a)) by (rewrite El; apply in_elt).
  assert (Hc : In a (chi s p)) by (apply (gi_chi s G); auto).
  assert (Nd := gi_nd s G a Ha). rewrite El in Nd. assert (Nd2 := NoDup_remove _ _ _ Nd). destruct Nd2 as [Nd2 Np].
  set (s1 := set_par s _) in *. unfold drop_child_and_refresh, remove_child.
  assert (M : memn s1 (chi s1 p) a = true) by (apply memn_spec; eauto).
  rewrite M. unfold s1. cbn [chi set_par nm].
  assert (HP : forall x, In x (l1 ++ l2) <-> In x (par s a) /\ x <> p).
  { intros x. rewrite El, !in_app_iff. cbn. rewrite !in_app_iff in Np. intuition; subst; intuition. }
  apply refresh_returns; auto.
  - destruct G as [G1 G2 G3 G4 G5 G6]. constructor; cbn; auto.
    + intros b q Hb Hq. unfold fup in Hq. destruct (Nat.eqb_spec b a); [|eauto].
      apply HP in Hq. subst. apply (G1 a q); tauto.
    + intros q c Hq. unfold fup. destruct (Nat.eqb_spec q p) as [->|Nq]; destruct (Nat.eqb_spec c a) as [->|Nca].
      * rewrite filter_In, HP, Nat.eqb_refl. cbn. intuition.
      * rewrite filter_In, (G2 p c Hp). split; [tauto|]. intros [H1 H2]. split; auto.
        destruct (Nat.eqb_spec (nm s c) (nm s a)) as [En|]; [|reflexivity]. exfalso. apply Nca, G4; auto.
      * rewrite HP, (G2 q a Hq). intuition.
      * apply G2; auto.
    + intros b Hb. unfold fup. destruct (Nat.eqb_spec b a) as [->|]; auto.
  - destruct (inv_ac s I) as (rank & Hr). exists rank. intros b q Hb Hq. cbn in Hb, Hq. unfold fup in Hq.
    destruct (Nat.eqb_spec b a) as [->|]; [|auto]. apply HP in Hq. apply Hr; tauto.
Qed.

Lemma drop_parent_shape s a p l1 l2 s' e : Inv s -> a < nobj s -> par s a = l1 ++ p :: l2 ->
  drop_child_and_refresh ord k (set_par s (fup (par s) a (l1 ++ l2))) a p = Some (s', e) ->
  e = None /\ par s' a = l1 ++ l2 /\ (forall b, b <> a -> par s' b = par s b) /\ cel s' = cel s /\ dof_of s' = dof_of s.
Proof.
  intros I Ha El H. assert (G := inv_g s I).
  assert (Hp : p < nobj s) by (apply (gi_par s G a p Ha); rewrite El; apply in_elt).
  assert (Hin : In p (par s a)) by (rewrite El; apply in_elt).
  assert (Hc : In a (chi s p)) by (apply (gi_chi s G); auto).
  set (s1 := set_par s _) in *. unfold drop_child_and_refresh, remove_child in H.
  assert (M : memn s1 (chi s1 p) a = true) by (apply memn_spec; eauto).
  rewrite M in H. set (s2 := set_chi _ _) in H.
  assert (X : exists f r n, e = None /\ s' = set_newx (set_fre (set_full s2 f) r) n).
  { unfold refresh in H. destruct (update_full ord k s2 a) as [t1|] eqn:E1; [|discriminate].
    unfold update_full in E1. rewrite visit_trace in E1 by reflexivity.
    destruct (trace ord (chi s2) k a) as [tr|]; [|discriminate]. injection E1 as <-. cbn [bindo] in H.
    destruct (update_free ord k _ a) as [t2|] eqn:E2; [|discriminate].
    unfold update_free in E2. rewrite visit_trace in E2 by reflexivity.
    destruct (trace ord _ k a) as [tr2|]; [|discriminate]. injection E2 as <-. cbn [bindo] in H.
    destruct (set_flag ord k _ a) as [t3|] eqn:E3; [|discriminate].
    unfold set_flag in E3. rewrite visit_trace in E3 by reflexivity.
    destruct (trace ord _ k a) as [tr3|]; [|discriminate]. injection E3 as <-. cbn in H. injection H as <- <-.
    rewrite fold_full, fold_free, fold_flag. do 3 eexists. split; reflexivity. }
  destruct X as (f & r & n & -> & ->). cbn.
  repeat split; auto; [apply fup_same|]. intros b Hb. now apply fup_other.
Qed.

Lemma pop_parent_ok s a i l1 p l2 : Inv s -> a < nobj s -> nobj s <= k ->
  par s a = l1 ++ p :: l2 -> (i = Z.of_nat (length l1) \/ i = Z.of_nat (length l1) - Z.of_nat (length (par s a)))%Z ->
  exists s', pop_parent ord k s a i = Some (s', None) /\ par s' a = l1 ++ l2 /\
    (forall b, b <> a -> par s' b = par s b) /\ cel s' = cel s /\ dof_of s' = dof_of s.
Proof.
  intros I Ha Hk El Hi. unfold pop_parent.
  assert (Hpop : py_pop i (par s a) = Some (p, l1 ++ l2)).
  { unfold py_pop. cbv zeta. set (n := Z.of_nat (length (par s a))) in *.
    assert (Hn : (Z.of_nat (length l1) < n)%Z) by (unfold n; rewrite El, app_length; cbn; lia).
    set (j := if (i <? 0)%Z then (i + n)%Z else i).
    assert (Hj : j = Z.of_nat (length l1)).
    { unfold j. destruct (Z.ltb_spec i 0); lia. }
    rewrite Hj. destruct (Z.leb_spec 0 (Z.of_nat (length l1))); [|lia].
    destruct (Z.ltb_spec (Z.of_nat (length l1)) n); [|lia]. cbn [andb].
    rewrite Nat2Z.id, El. rewrite nth_error_app2, Nat.sub_diag by lia. cbn [nth_error]. now rewrite drop_nth. }
  rewrite Hpop. destruct (drop_parent_effect s a p l1 l2 I Ha El Hk) as (s' & E). exists s'. split; auto.
  apply drop_parent_shape in E; auto. tauto.
Qed.

Lemma pop_parent_bad s a i : (i < - Z.of_nat (length (par s a)) \/ i >= Z.of_nat (length (par s a)))%Z ->
  pop_parent ord k s a i = Some (s, Some EIndex).
Proof.
  intros Hi. unfold pop_parent, py_pop. cbv zeta. set (n := Z.of_nat (length (par s a))) in *.
  set (j := if (i <? 0)%Z then (i + n)%Z else i).
  assert ((0 <=? j)%Z && (j <? n)%Z = false) as ->; auto.
  unfold j. destruct (Z.ltb_spec i 0); lia.
Qed.

Lemma remove_parent_ok s a l1 p l2 : Inv s -> a < nobj s -> nobj s <= k ->
  par s a = l1 ++ p :: l2 ->
  exists s', remove_parent ord k s a p = Some (s', None) /\ par s' a = l1 ++ l2 /\
    (forall b, b <> a -> par s' b = par s b) /\ cel s' = cel s /\ dof_of s' = dof_of s.
Proof.
  intros I Ha Hk El. unfold remove_parent.
  destruct (find_index _ (par s a)) as [j|] eqn:E.
  - apply find_pop_spec in E. destruct E as (m1 & x & m2 & Em & Hf & Er). apply Nat.eqb_eq in Hf.
    assert (Hx : x < nobj s) by (apply (gi_par s (inv_g s I) a x Ha); rewrite Em; apply in_elt).
    assert (Hp : p < nobj s) by (apply (gi_par s (inv_g s I) a p Ha); rewrite El; apply in_elt).
    assert (x = p) by (apply (gi_nm s (inv_g s I)); auto). subst x.
    assert (Nd := gi_nd s (inv_g s I) a Ha).
    assert (Eq : m1 = l1 /\ m2 = l2).
    { rewrite El in Nd, Em. clear - Nd Em. revert m1 Em; induction l1 as [|y l1 IH]; intros [|z m1] Em; cbn in Em.
      - injection Em as ->; auto.
      - injection Em as E1 E2. inversion Nd as [|? ? H _]; subst. exfalso. apply H. apply in_elt.
      - injection Em as E1 E2. inversion Nd as [|? ? H _]; subst. exfalso. apply H. apply in_elt.
      - injection Em as -> Em. inversion Nd; subst. destruct (IH H2 m1 Em); subst; auto. }
    destruct Eq as [-> ->]. rewrite Er.
    destruct (drop_parent_effect s a p l1 l2 I Ha El Hk) as (s' & E2). exists s'. split; auto.
    apply drop_parent_shape in E2; auto. tauto.
  - exfalso. assert (F := proj1 (find_index_None _ _) E p). cbv beta in F. rewrite Nat.eqb_refl in F.
    discriminate F. rewrite El. apply in_elt.
Qed.

Lemma remove_parent_bad s a p : Inv s -> a < nobj s -> p < nobj s -> ~ In p (par s a) ->
  remove_parent ord k s a p = Some (s, Some EValue).
Proof.
  intros I Ha Hp Np. unfold remove_parent. rewrite (proj2 (find_index_None _ _)); auto.
  intros b Hb. apply Nat.eqb_neq. intros En. assert (b = p); [|subst; tauto].
  apply (gi_nm s (inv_g s I)); auto. exact (gi_par s (inv_g s I) a b Ha Hb).
Qed.

(** ** the remaining operations return *)
Lemma fold_returns {A} (f : st -> A -> @outcome V) (P : st -> A -> Prop) :
  (forall s x, Inv s -> nobj s <= k -> P s x -> exists s' e, f s x = Some (s', e) /\ Step s s') ->
  (forall s s' x, Step s s' -> P s x -> P s' x) ->
  forall l s, Inv s -> nobj s <= k -> (forall x, In x l -> P s x) ->
  exists s' e, fold_left (fun r x => bindr r (fun s' => f s' x)) l (Some (s, None)) = Some (s', e).
Proof.
  intros Hf HP l.
  assert (Herr : forall l s e, fold_left (fun (r : @outcome V) x => bindr r (fun s' => f s' x)) l (Some (s, Some e)) = Some (s, Some e))
    by (induction l0; cbn; auto).
  induction l as [|x l IH]; intros s I Hk Hl; cbn [fold_left bindr]; [eauto|].
  destruct (Hf s x I Hk) as (s1 & [e1|] & E & S1); [apply Hl; now left| |]; rewrite E.
  - rewrite Herr. eauto.
  - apply IH; [apply S1| |].
    + destruct S1 as (_ & _ & _ & -> & _). auto.
    + intros y Hy. eapply HP; eauto. apply Hl; now right.
Qed.

Lemma fold_returns_raw {A} (f : st -> A -> @outcome V) (Q : st -> Prop) :
  (forall s x, Q s -> exists s' e, f s x = Some (s', e) /\ Q s') ->
  forall l s, Q s ->
  exists s' e, fold_left (fun r x => bindr r (fun s' => f s' x)) l (Some (s, None)) = Some (s', e) /\ Q s'.
Proof.
  intros Hf l.
  assert (Herr : forall l s e, fold_left (fun (r : @outcome V) x => bindr r (fun s' => f s' x)) l (Some (s, Some e)) = Some (s, Some e))
    by (induction l0; cbn; auto).
  induction l as [|x l IH]; intros s HQ; cbn [fold_left bindr]; [eauto|].
  destruct (Hf s x HQ) as (s1 & [e1|] & E & Q1); rewrite E; [rewrite Herr|]; eauto.
Qed.

(** only the graph matters for returning *)
Definition sameG s0 s := chi s = chi s0.

Lemma fold_returns_raw_in {A} (f : st -> A -> @outcome V) (Q : st -> Prop) :
  forall l, (forall s x, In x l -> Q s -> exists s' e, f s x = Some (s', e) /\ Q s') ->
  forall s, Q s ->
  exists s' e, fold_left (fun r x => bindr r (fun s' => f s' x)) l (Some (s, None)) = Some (s', e) /\ Q s'.
Proof.
  intros l.
  assert (Herr : forall l s e, fold_left (fun (r : @outcome V) x => bindr r (fun s' => f s' x)) l (Some (s, Some e)) = Some (s, Some e))
    by (induction l0; cbn; auto).
  induction l as [|x l IH]; intros Hf s HQ; cbn [fold_left bindr]; [eauto|].
  destruct (Hf s x (or_introl eq_refl) HQ) as (s1 & [e1|] & E & Q1); rewrite E; [rewrite Herr|]; eauto.
  apply IH; auto. intros; apply Hf; auto. now right.
Qed.

Lemma visit_same (f : st -> nat -> st) s0 s a : (forall s a, chi (f s a) = chi s) ->
  Inv s0 -> nobj s0 <= k -> a < nobj s0 -> sameG s0 s -> exists s', visit ord f k s a = Some s' /\ sameG s0 s'.
Proof.
  intros Hf I Hk Ha HS. destruct (trace_returns s0 a (inv_g _ I) (inv_ac _ I) Ha Hk) as (tr & E).
  rewrite visit_trace by auto. rewrite HS, E. eexists; split; [reflexivity|].
  unfold sameG. rewrite fold_chi by auto. auto.
Qed.

Lemma flag_recompute_returns s0 s D : Inv s0 -> nobj s0 <= k -> D < ncell s0 -> sameG s0 s -> dep s = dep s0 ->
  exists s' e, flag_recompute ord k s D = Some (s', e) /\ sameG s0 s'.
Proof.
  intros I Hk HD HS Hd. unfold flag_recompute. rewrite Hd.
  apply fold_returns_raw_in; auto. intros s1 o Ho HS1.
  apply (inv_dep s0 I D HD) in Ho. set (s2 := if setter s1 o then _ else s1).
  assert (HS2 : sameG s0 s2) by (unfold s2, sameG; destruct (setter s1 o); auto).
  destruct (visit_same flag_local s0 s2 o) as (s3 & E & HS3); auto; [tauto|].
  unfold set_flag. rewrite E. cbn. eauto.
Qed.

Lemma update_opt_returns s0 s D : Inv s0 -> nobj s0 <= k -> D < ncell s0 -> sameG s0 s -> dep s = dep s0 ->
  exists s' e, update_opt_indices ord k s D = Some (s', e) /\ sameG s0 s'.
Proof.
  intros I Hk HD HS Hd. unfold update_opt_indices. rewrite Hd.
  apply fold_returns_raw_in; auto. intros s1 o Ho HS1.
  apply (inv_dep s0 I D HD) in Ho.
  destruct (visit_same free_local s0 s1 o) as (s3 & E & HS3); auto; [tauto|].
  unfold update_free. rewrite E. cbn. eauto.
Qed.

Lemma cell_write_returns s D r (K : st -> @outcome V) :
  (forall d, exists s' e, K (set_cel s (fup (cel s) D d)) = Some (s', e)) ->
  exists s' e, cell_write s D r K = Some (s', e).
Proof. intros H. destruct r as [d [e|]]; cbn; eauto. Qed.

Lemma gstep_returns s o : Inv s -> valid_op s o ->
  match o with GAddParent a _ p | GAppendParent a p => p <> a /\ ~ Anc s a p | _ => True end ->
  nobj s < k -> exists s' e, gstep ord k s o = Some (s', e).
Proof.
  intros I Hv Hc Hk. assert (G := inv_g s I).
  assert (HL1 : forall s o v, Inv s -> nobj s <= k -> o < nobj s -> exists s' e, set_local_x ord k s o v = Some (s', e) /\ Step s s').
  { intros s0 o0 v I0 Hk0 Ho. 
    assert (X : exists s' e, set_local_x ord k s0 o0 v = Some (s', e)).
    { unfold set_local_x. destruct (negb _); eauto. apply cell_write_returns. intros d.
      destruct (flag_recompute_returns s0 (set_cel s0 (fup (cel s0) (dof_of s0 o0) d)) (dof_of s0 o0)) as (s' & e & E & _);
        eauto; try reflexivity. now apply (gi_dof s0 (inv_g _ I0)). }
    destruct X as (s' & e & E). exists s', e. split; auto. eapply set_local_x_step; eauto. }
  assert (HL2 : forall s o v, Inv s -> nobj s <= k -> o < nobj s -> exists s' e, set_local_full_x ord k s o v = Some (s', e) /\ Step s s').
  { intros s0 o0 v I0 Hk0 Ho. 
    assert (X : exists s' e, set_local_full_x ord k s0 o0 v = Some (s', e)).
    { unfold set_local_full_x. apply cell_write_returns. intros d.
      destruct (flag_recompute_returns s0 (set_cel s0 (fup (cel s0) (dof_of s0 o0) d)) (dof_of s0 o0)) as (s' & e & E & _);
        eauto; try reflexivity. now apply (gi_dof s0 (inv_g _ I0)). }
    destruct X as (s' & e & E). exists s', e. split; auto. eapply set_local_full_x_step; eauto. }
  assert (HU : forall s0 D d a0, Inv s0 -> nobj s0 <= k -> D < ncell s0 -> a0 < nobj s0 ->
     exists s' e, bindr (update_opt_indices ord k (set_cel s0 (fup (cel s0) D d)) D) (fun s'' => ret (update_free ord k s'' a0)) = Some (s', e)).
  { intros s0 D d a0 I0 Hk0 HD Ha0.
    destruct (update_opt_returns s0 (set_cel s0 (fup (cel s0) D d)) D) as (s1 & e1 & E1 & HS1); auto; try reflexivity.
    rewrite E1. destruct e1; cbn; eauto.
    destruct (visit_same free_local s0 s1 a0) as (s3 & E & HS3); auto. unfold update_free. rewrite E. cbn. eauto. }
  assert (HA : forall s0 b o0, Inv s0 -> nobj s0 <= k -> o0 < nobj s0 -> exists s' e, local_status_all ord k b s0 o0 = Some (s', e) /\ Step s0 s').
  { intros s0 b o0 I0 Hk0 Ho.
    assert (X : exists s' e, local_status_all ord k b s0 o0 = Some (s', e)).
    { unfold local_status_all. apply cell_write_returns. intros d. apply HU; auto. now apply (gi_dof s0 (inv_g _ I0)). }
    destruct X as (s' & e & E). exists s', e. split; auto. eapply local_status_all_step; eauto. }
  destruct o; cbn [gstep]; cbn in Hv.
  - (* new *)
    destruct Hv as (Hname & Hda & Hdl & Hvf). unfold new_obj.
    set (s0 := mkSt _ _ _ _ _ _ _ _ _ _ _ _ _). set (P := if via_funcs then dedup s0 depends_on else depends_on).
    assert (HP : NoDup P /\ forall x, In x P -> In x depends_on).
    { unfold P. destruct via_funcs; [|split; auto].
      assert (Ed : dedup s0 depends_on = dedup s depends_on).
      { unfold dedup. apply dedup_acc_ext. cbn [app]. intros b Hb. cbn. apply fup_other. assert (X := Hdl b Hb). lia. }
      rewrite Ed. destruct (dedup_spec s depends_on) as [X1 X2].
      - intros x y Hx Hy. apply (gi_nm s G); auto.
      - split; auto. intros x. apply X2. }
    destruct HP as [NdP HP].
    destruct (fold_add_child (nobj s) P (set_par s0 (fup (par s0) (nobj s) P))) as (C & EC & HC); auto.
    { intros p x Hp Hx. cbn in Hx. assert (Hplt : p < nobj s) by auto.
      rewrite fup_other in Hx by lia. assert (Hxl := chi_lt s p x G Hplt Hx).
      cbn. rewrite fup_same, fup_other by lia. auto. }
    rewrite EC. set (s2 := set_chi _ C).
    assert (HCa : C (nobj s) = []).
    { destruct (C (nobj s)) as [|x r] eqn:E; auto. exfalso. assert (Hx : In x (C (nobj s))) by (rewrite E; now left).
      apply HC in Hx. cbn in Hx. rewrite fup_same in Hx. destruct Hx as [[]|[_ Hx]].
      apply HP, Hdl in Hx. lia. }
    assert (Ht : exists tr, trace ord (chi s2) k (nobj s) = Some tr).
    { destruct k as [|k']; [lia|]. cbn. rewrite HCa.
      assert (E0 : ord [] = []) by (apply Permutation_nil; symmetry; apply ord_perm). rewrite E0. cbn. eauto. }
    destruct Ht as (tr & E).
    unfold refresh, update_full, update_free, set_flag.
    rewrite visit_trace by reflexivity. rewrite E. cbn [bindo].
    rewrite visit_trace by reflexivity. rewrite fold_chi by reflexivity. rewrite E. cbn [bindo].
    rewrite visit_trace by reflexivity. rewrite !fold_chi by reflexivity. rewrite E. cbn. eauto.
  - destruct (add_parent_returns s a i p) as (s' & E); try tauto; [lia|eauto].
  - destruct (add_parent_returns s a (Z.of_nat (length (par s a))) p) as (s' & E); try tauto; [lia|].
    unfold append_parent. eauto.
  - unfold pop_parent. destruct (py_pop i (par s a)) as [[p l]|] eqn:E; eauto.
    apply py_pop_spec in E. destruct E as (l1 & l2 & El & ->).
    destruct (drop_parent_effect s a p l1 l2) as (s' & E); auto; [lia|eauto].
  - unfold remove_parent. destruct (find_index _ _) as [j|] eqn:E; eauto.
    apply find_pop_spec in E. destruct E as (l1 & x & l2 & El & Hf & Er). apply Nat.eqb_eq in Hf.
    assert (x < nobj s) by (apply (gi_par s G a x); [tauto|]; rewrite El; apply in_elt).
    assert (x = p) by (apply (gi_nm s G); tauto). subst x. rewrite Er.
    destruct (drop_parent_effect s a p l1 l2) as (s' & E); try tauto; [lia|eauto].
  - unfold replace_dofs. set (s2 := set_dof_of _ _).
    assert (Hcs : chi s2 = chi s) by (unfold s2, remove_opt; destruct (find_index _ _); reflexivity).
    destruct (trace_returns s a G (inv_ac s I)) as (tr & E); [tauto|lia|]. rewrite <- Hcs in E.
    unfold refresh, update_full, update_free, set_flag.
    rewrite visit_trace by reflexivity. rewrite E. cbn [bindo].
    rewrite visit_trace by reflexivity. rewrite fold_chi by reflexivity. rewrite E. cbn [bindo].
    rewrite visit_trace by reflexivity. rewrite !fold_chi by reflexivity. rewrite E. cbn. eauto.
  - unfold set_status_key. apply cell_write_returns. intros d. apply HU; auto; [lia|]. now apply (gi_dof s G).
  - destruct (HA s b a) as (s' & e & E & _); eauto. lia.
  - unfold status_all. apply (fold_returns (fun s' o => local_status_all ord k b s' o) (fun s o => o < nobj s)); auto; [|lia|].
    + intros s0 s0' x (_ & _ & _ & -> & _); auto.
    + intros x Hx. eapply uniq_lt; eauto.
  - unfold full_status. apply (fold_returns (fun s' (x : nat * (nat * nat)) =>
      let D := dof_of s' (fst x) in
      let w := slice (fst (snd x)) (snd (snd x)) v in
      cell_write s' D (assign_free (cel s' D) (if neg then map negb w else w))
                 (fun s'' => update_opt_indices ord k s'' D)) (fun s x => fst x < nobj s)); auto; [| |lia|].
    + intros s0 x I0 Hk0 Hx. cbv zeta.
      destruct (cell_write_returns s0 (dof_of s0 (fst x))
          (assign_free (cel s0 (dof_of s0 (fst x))) (if neg then map negb (slice (fst (snd x)) (snd (snd x)) v) else slice (fst (snd x)) (snd (snd x)) v))
          (fun s'' => update_opt_indices ord k s'' (dof_of s0 (fst x)))) as (s' & e & E).
      { intros d. edestruct (update_opt_returns s0) as (s' & e & E & _); [exact I0|exact Hk0| | | |eauto]; try reflexivity.
        now apply (gi_dof s0 (inv_g _ I0)). }
      exists s', e. split; auto. eapply full_status_one_step; eauto.
    + intros s0 s0' x; apply step_lt.
    + intros x Hx. eapply f_idx_lt; eauto.
  - unfold set_x. destruct (negb _); eauto.
    apply (fold_returns (fun s' (x : nat * (nat * nat)) => set_local_x ord k s' (fst x) (slice (fst (snd x)) (snd (snd x)) v))
       (fun s x => fst x < nobj s)); auto; [|lia|].
    + intros s0 s0' x; apply step_lt.
    + intros x Hx. eapply r_idx_lt; eauto.
  - unfold set_gfull_x.
    apply (fold_returns (fun s' (x : nat * (nat * nat)) => set_local_full_x ord k s' (fst x) (slice (fst (snd x)) (snd (snd x)) v))
       (fun s x => fst x < nobj s)); auto; [|lia|].
    + intros s0 s0' x; apply step_lt.
    + intros x Hx. eapply f_idx_lt; eauto.
  - destruct (HL1 s a v) as (s' & e & E & _); eauto. lia.
  - destruct (HL2 s a v) as (s' & e & E & _); eauto. lia.
  - unfold set_key. apply cell_write_returns. intros d.
    destruct (flag_recompute_returns s (set_cel s (fup (cel s) (dof_of s a) d)) (dof_of s a)) as (s' & e & E & _);
      eauto; try reflexivity; [lia|]. now apply (gi_dof s G).
  - unfold set_lower. destruct (negb _); eauto.
    match goal with |- context [fold_left ?f _ _] => 
      destruct (fold_returns_raw_in (fun s' (e : nat * (nat * nat)) => let D := dof_of s' (fst e) in
           cell_write s' D (set_free_lb (cel s' D) (slice (fst (snd e)) (snd (snd e)) v)) (fun s'' => Some (s'', None)))
           (fun _ => True) (r_idx (fre s a))) with (s := s) as (s' & e & E & _) end; eauto.
    intros s0 x _ _. cbv zeta. destruct (set_free_lb _ _) as [d [er|]]; cbn; eauto.
  - unfold set_upper. destruct (negb _); eauto.
    match goal with |- context [fold_left ?f _ _] => 
      destruct (fold_returns_raw_in (fun s' (e : nat * (nat * nat)) => let D := dof_of s' (fst e) in
           cell_write s' D (set_free_ub (cel s' D) (slice (fst (snd e)) (snd (snd e)) v)) (fun s'' => Some (s'', None)))
           (fun _ => True) (r_idx (fre s a))) with (s := s) as (s' & e & E & _) end; eauto.
    intros s0 x _ _. cbv zeta. destruct (set_free_ub _ _) as [d [er|]]; cbn; eauto.
  - eauto.
Qed.
End WithOrd.
End P.
