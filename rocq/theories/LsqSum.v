(** C35, C54: adding least squares problems. *)
From Verif Require Import ListAux DofsModel VecAux LsqModel LsqProps.
Local Open Scope R_scope.

(** ** Specification *)
(** the functions are listed object by object: each block holds methods of one object, no object has two blocks *)
Definition expand (bs : list (nat * list nat)) : list func := concat (map (fun b => map (pair (fst b)) (snd b)) bs).
Definition consecutive (fs : list func) := exists bs, fs = expand bs /\ NoDup (map fst bs) /\ Forall (fun b => snd b <> []) bs.
(** the value of a problem for given results of the functions *)
Definition value (P : problem) (F : func -> list R) : R := lsq_value (map F (p_funcs P)) (p_goals P) (p_weights P).
(** a problem made by the constructor from bound methods (from_tuples, funcs_in=...) *)
Definition from_methods (P : problem) := exists g w fs fl, mk_funcs g w fs fl = inl P.

(** ** regrouping *)
Definition regroup (P : problem) : list func := concat (map (fun o => map (pair o) (return_fns P o)) (p_parents P)).
Lemma undup_spec l : forall seen, NoDup (undup seen l) /\ forall o, In o (undup seen l) <-> In o l /\ ~ In o seen.
Proof.
  induction l as [|a l IH]; intros seen; cbn. { split; [constructor|]. tauto. }
  destruct (existsb (Nat.eqb a) seen) eqn:Ea.
  - apply existsb_exists in Ea. destruct Ea as (b & Hb & Eb). apply Nat.eqb_eq in Eb. subst b. destruct (IH seen) as [N I]. split; auto.
    intros o. rewrite I. split; [tauto|]. intros [[->|H] HN']; tauto.
  - assert (Hn : ~ In a seen). { intros H. assert (existsb (Nat.eqb a) seen = true); [|congruence]. apply existsb_exists. exists a. split; auto. apply Nat.eqb_refl. }
    destruct (IH (a :: seen)) as [N I]. split.
    + constructor; auto. rewrite I. cbn. tauto.
    + intros o. cbn. rewrite I. cbn. split; [intros [->|[H1 H2]]; tauto|]. intros [[->|H1] H2]; auto. destruct (Nat.eq_dec a o) as [->|]; auto. right. split; auto. tauto.
Qed.
Lemma undup_blocks bs : NoDup (map fst bs) -> Forall (fun b => snd b <> []) bs -> forall seen, (forall o, In o (map fst bs) -> ~ In o seen) -> undup seen (map fst (expand bs)) = map fst bs.
Proof.
  intros N. induction bs as [|[o l] bs IH]; intros NE seen D; auto. inversion_clear NE as [|? ? Hl NE']. inversion_clear N as [|? ? No N']. cbn in Hl.
  unfold expand. cbn [map concat fst snd]. fold (expand bs). rewrite map_app, map_map. cbn [fst].
  destruct l as [|f l]; [congruence|]. cbn [map app undup].
  assert (Hs : existsb (Nat.eqb o) seen = false). { destruct (existsb _ seen) eqn:E; auto. exfalso. apply existsb_exists in E. destruct E as (b & Hb & Eb). apply Nat.eqb_eq in Eb. subst b. apply (D o); cbn; auto. }
  rewrite Hs. f_equal.
  assert (SK : forall l rest seen', In o seen' -> undup seen' (map (fun _ : nat => o) l ++ rest) = undup seen' rest).
  { clear. induction l as [|x l IH]; intros rest seen' H; cbn; auto. assert (existsb (Nat.eqb o) seen' = true) as -> by (apply existsb_exists; exists o; split; auto; apply Nat.eqb_refl). now apply IH. }
  rewrite SK by (now left). apply IH; auto. intros o' Ho' [<-|H]; [contradiction|]. apply (D o'); cbn; auto.
Qed.
Lemma filter_expand_nil bs o : ~ In o (map fst bs) -> filter (fun f : func => (fst f =? o)%nat) (expand bs) = [].
Proof.
  intros H. assert (G : forall f, In f (expand bs) -> fst f <> o).
  { intros f Hf E. apply H. rewrite <- E. unfold expand in Hf. apply in_concat in Hf. destruct Hf as (l & Hl & Hf). apply in_map_iff in Hl. destruct Hl as (b & <- & Hb).
    apply in_map_iff in Hf. destruct Hf as (x & <- & _). cbn. now apply in_map. }
  induction (expand bs) as [|f l IH]; auto. cbn. destruct (Nat.eqb_spec (fst f) o) as [E|]; [exfalso; apply (G f); cbn; auto|]. apply IH. intros g Hg. apply G. now right.
Qed.
Lemma filter_expand bs o l : NoDup (map fst bs) -> In (o, l) bs -> map snd (filter (fun f : func => (fst f =? o)%nat) (expand bs)) = l.
Proof.
  assert (F0 : forall (l : list nat) o o', o <> o' -> filter (fun f : func => (fst f =? o)%nat) (map (pair o') l) = []).
  { clear. induction l as [|x l IH]; intros o o' H; cbn; auto. destruct (Nat.eqb_spec o' o); [congruence|]. now apply IH. }
  assert (F1 : forall (l : list nat) o, map snd (filter (fun f : func => (fst f =? o)%nat) (map (pair o) l)) = l).
  { clear. induction l as [|x l IH]; intros o; cbn; auto. rewrite Nat.eqb_refl. cbn. now rewrite IH. }
  intros N. induction bs as [|[p m] bs IH]; intros H; [destruct H|]. inversion_clear N as [|? ? Np N'].
  unfold expand. cbn [map concat fst snd]. fold (expand bs). rewrite filter_app, map_app. destruct H as [H|H].
  - injection H as -> ->. rewrite F1. replace (filter _ (expand bs)) with (@nil func); [apply app_nil_r|]. symmetry.
    now apply filter_expand_nil.
  - rewrite F0; [now apply IH|]. intros ->. apply Np. apply in_map_iff. exists (p, l). auto.
Qed.
Lemma regroup_consecutive P : from_methods P -> consecutive (p_funcs P) -> regroup P = p_funcs P.
Proof.
  intros (g & w & fs & fl & E) (bs & EB & N & NE). unfold mk_funcs in E. destruct (existsb fneg w); [discriminate|]. injection E as <-. cbn in *. subst fs.
  unfold regroup. cbn [p_parents]. rewrite undup_blocks by (auto; intros ? ? []). unfold return_fns. cbn [p_funcs].
  transitivity (concat (map (fun b => map (pair (fst b)) (snd b)) bs)); [|reflexivity]. f_equal. rewrite map_map. apply map_ext_in. intros [o l] Hb. cbn [fst snd]. f_equal. now apply filter_expand.
Qed.

(** each parent in [p_parents] has at least one registered method, for problems made from methods *)
Lemma parents_nonempty P : from_methods P -> Forall (fun o => return_fns P o <> []) (p_parents P).
Proof.
  intros (g & w & fs & fl & E). unfold mk_funcs in E. destruct (existsb fneg w); [discriminate|]. injection E as <-. cbn [p_parents].
  apply Forall_forall. intros o Ho. apply (proj2 (undup_spec _ _)) in Ho. destruct Ho as [Ho _]. apply in_map_iff in Ho. destruct Ho as ([o' f] & <- & Hf). cbn [fst].
  unfold return_fns. cbn [p_funcs]. intros H. assert (HI : In (o', f) (filter (fun f => (fst f =? o')%nat) fs)) by (apply filter_In; split; auto; cbn; apply Nat.eqb_refl).
  apply map_eq_nil in H. rewrite H in HI. destruct HI.
Qed.

Lemma depends_funcs rmap (parents : list nat) (fns : nat -> list nat) : Forall (fun o => fns o <> []) parents ->
  concat (map (fun of : nat * list nat => map (fun f => (fst of, f)) (match snd of with [] => rmap (fst of) | l => l end)) (combine parents (map fns parents))) =
  concat (map (fun o => map (pair o) (fns o)) parents).
Proof. induction 1 as [|o l H _ IH]; cbn; auto. rewrite IH. destruct (fns o); [congruence|]. reflexivity. Qed.
Lemma combine_app' {A B} (a1 : list A) : forall (b1 : list B) a2 b2, length a1 = length b1 -> combine (a1 ++ a2) (b1 ++ b2) = combine a1 b1 ++ combine a2 b2.
Proof. induction a1 as [|x a IH]; intros [|y b] a2 b2 H; cbn in *; try discriminate; auto. f_equal. apply IH. lia. Qed.
Lemma lsq_value_app o1 : forall g1 w1 o2 g2 w2, length o1 = length g1 -> length o1 = length w1 ->
  lsq_value (o1 ++ o2) (g1 ++ g2) (w1 ++ w2) = lsq_value o1 g1 w1 + lsq_value o2 g2 w2.
Proof. induction o1 as [|o os IH]; intros [|g gs] [|w ws] o2 g2 w2 H1 H2; cbn in *; try discriminate; [ring|]. rewrite IH by lia. ring. Qed.

(** all the properties of a problem that + needs: kept by + on problems without common objects *)
Record addable (P : problem) : Prop := mkAddable {
  ad_wf : wellformed P; ad_group : regroup P = p_funcs P; ad_par : Forall (fun o => return_fns P o <> []) (p_parents P) }.
Lemma addable_methods P : wellformed P -> from_methods P -> consecutive (p_funcs P) -> addable P.
Proof. intros W M C. constructor; auto. - now apply regroup_consecutive. - now apply parents_nonempty. Qed.

Lemma padd_ok rmap p q a b : addable p -> addable q -> p_fail p = Some a -> p_fail q = Some b ->
  padd rmap p q = inl (mkProb (p_goals p ++ p_goals q) (p_weights p ++ p_weights q) (p_parents p ++ p_parents q) (p_funcs p ++ p_funcs q) (Some (Rmax a b))).
Proof.
  intros [[] GP NP] [[] GQ NQ] EA EB. unfold padd. rewrite EA, EB. unfold mk_depends.
  assert (existsb fneg (p_weights p ++ p_weights q) = false) as -> by (apply existsb_fneg, Forall_app; auto).
  unfold parent_return_fns. rewrite combine_app' by now rewrite map_length. rewrite map_app, concat_app, !depends_funcs by auto.
  fold (regroup p). fold (regroup q). now rewrite GP, GQ.
Qed.
(** ** C35 *)
(** p + q keeps every goal and weight with its function: its value is the sum of the values *)
Theorem C35_sum_of_problems rmap p q a b :
  wellformed p -> from_methods p -> consecutive (p_funcs p) -> p_fail p = Some a ->
  wellformed q -> from_methods q -> consecutive (p_funcs q) -> p_fail q = Some b ->
  exists r, padd rmap p q = inl r /\ wellformed r /\ p_funcs r = p_funcs p ++ p_funcs q /\ p_fail r = Some (Rmax a b) /\
    forall F, value r F = value p F + value q F.
Proof.
  intros WP MP CP EP WQ MQ CQ EQ. eexists. split; [apply padd_ok; eauto using addable_methods|]. split; [|split; [|split]]; auto.
  - destruct WP, WQ. constructor; cbn; rewrite ?app_length; try lia. + destruct (p_funcs p); [congruence|discriminate]. + apply Forall_app; auto.
  - intros F. unfold value. cbn. rewrite map_app. destruct WP, WQ. apply lsq_value_app; rewrite map_length; auto.
Qed.
(** sums of any number of problems without common objects *)
Fixpoint psum (rmap : nat -> list nat) (p : problem) (qs : list problem) : problem + oerr :=
  match qs with [] => inl p | q :: r => match padd rmap p q with inl p' => psum rmap p' r | inr e => inr e end end.
Lemma addable_padd rmap p q a b : addable p -> addable q -> p_fail p = Some a -> p_fail q = Some b -> (forall o, In o (p_parents p) -> ~ In o (p_parents q)) ->
  (forall f, In f (p_funcs p) -> In (fst f) (p_parents p)) -> (forall f, In f (p_funcs q) -> In (fst f) (p_parents q)) ->
  exists r, padd rmap p q = inl r /\ addable r /\ p_fail r = Some (Rmax a b) /\ (forall f, In f (p_funcs r) -> In (fst f) (p_parents r)) /\
    p_parents r = p_parents p ++ p_parents q /\ forall F, value r F = value p F + value q F.
Proof.
  intros AP AQ EP EQ D PP PQ. eexists. split; [apply padd_ok; eauto|]. set (r := mkProb _ _ _ _ _).
  assert (RP : forall o, In o (p_parents p) -> return_fns r o = return_fns p o).
  { intros o Ho. unfold return_fns, r. cbn [p_funcs]. rewrite filter_app, map_app. replace (filter _ (p_funcs q)) with (@nil func); [apply app_nil_r|].
    symmetry. clear - Ho D PQ. induction (p_funcs q) as [|f l IH]; auto. cbn. destruct (Nat.eqb_spec (fst f) o) as [<-|]; [|apply IH; intros; apply PQ; now right].
    exfalso. apply (D (fst f)); auto. apply PQ. now left. }
  assert (RQ : forall o, In o (p_parents q) -> return_fns r o = return_fns q o).
  { intros o Ho. unfold return_fns, r. cbn [p_funcs]. rewrite filter_app, map_app. replace (filter _ (p_funcs p)) with (@nil func); [reflexivity|].
    symmetry. clear - Ho D PP. induction (p_funcs p) as [|f l IH]; auto. cbn. destruct (Nat.eqb_spec (fst f) o) as [<-|]; [|apply IH; intros; apply PP; now right].
    exfalso. apply (D (fst f)); auto. apply PP. now left. }
  destruct AP as [WP GP NP], AQ as [WQ GQ NQ].
  split; [constructor|].
  - destruct WP, WQ. constructor; cbn; rewrite ?app_length; try lia. + destruct (p_funcs p); [congruence|discriminate]. + apply Forall_app; auto.
  - unfold regroup. cbn [r p_parents]. rewrite map_app, concat_app. cbn [p_funcs r]. f_equal.
    + transitivity (regroup p); [|exact GP]. unfold regroup. f_equal. apply map_ext_in. intros o Ho. f_equal. now apply RP.
    + transitivity (regroup q); [|exact GQ]. unfold regroup. f_equal. apply map_ext_in. intros o Ho. f_equal. now apply RQ.
  - cbn [r p_parents]. apply Forall_app. split; rewrite Forall_forall in *; intros o Ho; [rewrite RP|rewrite RQ]; auto.
  - split; auto. split; [|split; auto].
    + intros f Hf. cbn in *. apply in_app_iff in Hf. apply in_app_iff. destruct Hf; auto.
    + intros F. unfold value. cbn. rewrite map_app. destruct WP, WQ. apply lsq_value_app; rewrite map_length; auto.
Qed.
Fixpoint disjoint_all (l : list (list nat)) : Prop :=
  match l with [] => True | a :: r => (forall b o, In b r -> In o a -> ~ In o b) /\ disjoint_all r end.
Theorem C35_sum_of_many rmap p qs : (forall P, In P (p :: qs) -> wellformed P /\ from_methods P /\ consecutive (p_funcs P) /\ p_fail P <> None) ->
  disjoint_all (map p_parents (p :: qs)) ->
  exists r, psum rmap p qs = inl r /\ wellformed r /\ forall F, value r F = rsuml (map (fun P => value P F) (p :: qs)).
Proof.
  intros H D.
  assert (PIN : forall P, from_methods P -> forall f, In f (p_funcs P) -> In (fst f) (p_parents P)).
  { clear. intros P (g & w & fs & fl & E) f Hf. unfold mk_funcs in E. destruct (existsb fneg w); [discriminate|]. injection E as <-. cbn in *. apply (proj2 (undup_spec _ _)). split; [now apply in_map|tauto]. }
  assert (G : forall qs p, addable p -> p_fail p <> None -> (forall f, In f (p_funcs p) -> In (fst f) (p_parents p)) ->
     (forall P, In P qs -> wellformed P /\ from_methods P /\ consecutive (p_funcs P) /\ p_fail P <> None) -> disjoint_all (map p_parents (p :: qs)) ->
     exists r, psum rmap p qs = inl r /\ wellformed r /\ forall F, value r F = rsuml (map (fun P => value P F) (p :: qs))).
  { clear - PIN. induction qs as [|q qs IH]; intros p AP FP PP H D.
    - exists p. split; auto. split; [apply AP|]. intros F. cbn. ring.
    - destruct (H q (or_introl eq_refl)) as (W & M & C & Fq). destruct (p_fail p) as [a|] eqn:Ea; [|congruence]. destruct (p_fail q) as [b|] eqn:Eb; [|congruence].
      cbn in D. destruct D as (D1 & D2 & D3).
      destruct (addable_padd rmap p q a b) as (r & E & AR & FR & PR & EPR & VR); auto using addable_methods.
      cbn [psum]. rewrite E. destruct (IH r AR) as (r' & E' & W' & V'); auto. { congruence. } { intros P HP. apply H. now right. }
      { cbn. split; auto. intros b' o Hb Ho. rewrite EPR in Ho. apply in_app_iff in Ho. destruct Ho as [Ho|Ho]; [eapply D1; eauto|eapply D2; eauto]. }
      exists r'. split; auto. split; auto. intros F. rewrite V'. cbn. rewrite VR. ring. }
  destruct (H p (or_introl eq_refl)) as (W & M & C & Fp). apply G; auto using addable_methods. intros P HP. apply H. now right.
Qed.

(** *** refuted when the functions of one object are not consecutive: goals 1, 2, 3 for A.f, B.g, A.h give
    after + a problem that compares B.g with the goal of A.h *)
Definition mix : problem := mkProb [1; 2; 3] [1; 1; 1] [0; 1]%nat [(0, 0); (1, 0); (0, 1)]%nat (Some 5).
Definition other : problem := mkProb [4] [1] [2]%nat [(2, 0)]%nat (Some 5).
Definition exactly (f : func) : list R := match f with (0, 0)%nat => [1] | (1, 0)%nat => [2] | (0, 1)%nat => [3] | _ => [4] end.
Theorem C35_refuted : from_methods mix /\ from_methods other /\ wellformed mix /\ wellformed other /\
  value mix exactly + value other exactly = 0 /\
  forall rmap, exists r, padd rmap mix other = inl r /\ value r exactly = 2.
Proof.
  assert (FN : existsb fneg [1; 1; 1] = false) by (apply existsb_fneg; repeat constructor; lra).
  assert (FN1 : existsb fneg [1] = false) by (apply existsb_fneg; repeat constructor; lra).
  assert (FN2 : existsb fneg [1; 1; 1; 1] = false) by (apply existsb_fneg; repeat constructor; lra).
  split; [exists [1; 2; 3], [1; 1; 1], [(0, 0); (1, 0); (0, 1)]%nat, (Some 5); unfold mk_funcs; now rewrite FN|].
  split; [exists [4], [1], [(2, 0)]%nat, (Some 5); unfold mk_funcs; now rewrite FN1|].
  split; [constructor; cbn; auto; [discriminate|repeat constructor; lra]|]. split; [constructor; cbn; auto; [discriminate|repeat constructor; lra]|].
  split; [cbv -[Rplus Rminus Rmult IZR]; ring|].
  intros rmap. eexists. split.
  - unfold padd, mk_depends. cbn [mix other p_fail p_weights app]. rewrite FN2. reflexivity.
  - cbv -[Rplus Rminus Rmult IZR]. ring.
Qed.

(** ** C54: adding a third problem when the first two share an object: the functions of that object are
    collected twice, so there are more functions than goals and every evaluation raises *)
Lemma concat_length_ge {A} (l : list (list A)) x : In x l -> (length x <= length (concat l))%nat.
Proof. induction l as [|y l IH]; cbn; [tauto|]. rewrite app_length. intros [->|H]; [lia|]. specialize (IH H). lia. Qed.
(** number of functions regrouped = sum over the parents of the number of functions of that parent *)
Definition cnt (fs : list func) (o : nat) : nat := length (filter (fun f => (fst f =? o)%nat) fs).
Lemma regroup_length fs parents : length (concat (map (fun o => map (pair o) (map snd (filter (fun f : func => (fst f =? o)%nat) fs))) parents)) = fold_right (fun o n => cnt fs o + n)%nat 0%nat parents.
Proof. induction parents as [|o l IH]; cbn; auto. rewrite app_length, IH, !map_length. reflexivity. Qed.
Lemma cnt_total fs : forall parents, NoDup parents -> (forall f, In f fs -> In (fst f) parents) -> fold_right (fun o n => cnt fs o + n)%nat 0%nat parents = length fs.
Proof.
  induction fs as [|f fs IH]; intros ps N H.
  - clear. unfold cnt. cbn. induction ps; cbn; auto.
  - cbn [length]. rewrite <- (IH ps N) by (intros g Hg; apply H; now right). assert (Hf := H f (or_introl eq_refl)).
    assert (C : forall o, cnt (f :: fs) o = ((if fst f =? o then 1 else 0) + cnt fs o)%nat). { intros o. unfold cnt. cbn. destruct (fst f =? o)%nat; auto. }
    clear - N Hf C. induction N as [|o l Hn N IH]; [destruct Hf|]. cbn [fold_right]. rewrite C. destruct (Nat.eqb_spec (fst f) o) as [E|E].
    + assert (X : fold_right (fun o n => cnt (f :: fs) o + n)%nat 0%nat l = fold_right (fun o n => cnt fs o + n)%nat 0%nat l).
      { clear - C Hn E. induction l as [|x l IH]; auto. cbn [fold_right]. rewrite C. destruct (Nat.eqb_spec (fst f) x) as [E'|]; [exfalso; apply Hn; left; congruence|]. rewrite IH; auto. intros H. apply Hn. now right. }
      rewrite X. lia.
    + destruct Hf as [Hf|Hf]; [congruence|]. rewrite IH by auto. lia.
Qed.

Lemma from_methods_inv P : from_methods P -> NoDup (p_parents P) /\ (forall o, In o (p_parents P) <-> exists f, In f (p_funcs P) /\ fst f = o).
Proof.
  intros (g & w & fs & fl & E). unfold mk_funcs in E. destruct (existsb fneg w); [discriminate|]. injection E as <-. cbn [p_parents p_funcs].
  destruct (undup_spec (map fst fs) []) as [N I]. split; auto. intros o. rewrite I, in_map_iff. split; [intros [(f & <- & Hf) _]; eauto|]. intros (f & Hf & <-). split; eauto.
Qed.
Lemma cnt_app f1 f2 o : cnt (f1 ++ f2) o = (cnt f1 o + cnt f2 o)%nat.
Proof. unfold cnt. now rewrite filter_app, app_length. Qed.
Lemma cnt_sum_app f1 f2 ps : fold_right (fun o n => cnt (f1 ++ f2) o + n)%nat 0%nat ps = (fold_right (fun o n => cnt f1 o + n)%nat 0%nat ps + fold_right (fun o n => cnt f2 o + n)%nat 0%nat ps)%nat.
Proof. induction ps as [|o l IH]; cbn; auto. rewrite IH, cnt_app. lia. Qed.
Lemma cnt_sum_pos fs ps o : In o ps -> (0 < cnt fs o)%nat -> (0 < fold_right (fun o n => cnt fs o + n)%nat 0%nat ps)%nat.
Proof. induction ps as [|a l IH]; cbn; [tauto|]. intros [->|H] P; [lia|]. specialize (IH H P). lia. Qed.
Lemma fold_right_app_nat (f : nat -> nat) l1 l2 : fold_right (fun o n => f o + n)%nat 0%nat (l1 ++ l2) = (fold_right (fun o n => f o + n)%nat 0%nat l1 + fold_right (fun o n => f o + n)%nat 0%nat l2)%nat.
Proof. induction l1 as [|a l IH]; cbn; auto. rewrite IH. lia. Qed.

Lemma lloop_too_many P : forall rs first nv calls i outs ws, length (p_weights P) = length (p_goals P) -> (length (p_goals P) < i + length rs)%nat -> (i <= length (p_goals P))%nat ->
  exists nv' calls' e, lloop P first nv calls i outs ws rs = (nv', calls', e) /\
    (e = LRaise (OErr EIndex) \/ (In None rs /\ (e = LRaise OFailure \/ (first = false /\ e = LBreak)))).
Proof.
  induction rs as [|r rs IH]; intros first nv calls i outs ws L H Hi; cbn in *; [lia|]. destruct r as [out|].
  - destruct (nth_error (p_goals P) i) as [g|] eqn:Eg; [|eauto 10].
    assert (HL : (i < length (p_goals P))%nat) by (apply nth_error_Some; congruence).
    destruct (nth_error (p_weights P) i) as [w|] eqn:Ew; [|apply nth_error_None in Ew; lia].
    edestruct IH as (nv' & c' & e & E & D); eauto; try lia. exists nv', c', e. split; [exact E|]. destruct D as [D|[D1 D2]]; auto.
  - do 3 eexists. split; [reflexivity|]. right. split; auto. destruct (p_fail P); [destruct first|]; auto.
Qed.
Definition is_eval {X} (o : lop X) := match o with AX _ | AFlag => False | _ => True end.
(** outcome of an evaluation that can never produce a value *)
Definition only_raises (r : lret) := r = RErr (OErr EIndex) \/ r = RErr OFailure.
Lemma too_many_history {X} P (F : X -> func -> option (list R)) : length (p_weights P) = length (p_goals P) -> (length (p_goals P) < length (p_funcs P))%nat ->
  forall ops xs, l_first (snd xs) = true -> l_newx (snd xs) = true ->
  Forall2 (fun o r => is_eval o -> only_raises r /\ ((forall x f, F x f <> None) -> r = RErr (OErr EIndex))) ops (snd (lrun P F xs ops)).
Proof.
  intros L H. induction ops as [|o ops IH]; intros [x s] E1 E2; cbn [lrun]; [constructor|].
  assert (U : forall s x, l_first s = true -> l_newx s = true -> exists s' c e, unweighted P (F x) s = (s', c, inr e) /\ l_first s' = true /\ l_newx s' = true /\
      (e = OErr EIndex \/ (e = OFailure /\ exists f, F x f = None))).
  { clear - L H. intros s x E1 E2. unfold unweighted. rewrite E2, E1.
    destruct (lloop_too_many P (map (F x) (p_funcs P)) true (l_nvals s) 0 0 [] [] L) as (nv & c & e & E & D); rewrite ?map_length; try lia.
    rewrite E. destruct D as [->|[D1 [->|[? _]]]]; try discriminate.
    - do 3 eexists. split; [reflexivity|]. cbn. auto.
    - do 3 eexists. split; [reflexivity|]. cbn. apply in_map_iff in D1. destruct D1 as (f & Hf & _). eauto 10. }
  assert (G : exists x' s' r, lstep P F (x, s) o = ((x', s'), r) /\ l_first s' = true /\ l_newx s' = true /\ (is_eval o -> only_raises r /\ ((forall x f, F x f <> None) -> r = RErr (OErr EIndex)))).
  { cbn in E1, E2. destruct o as [y| |y|y|y]; cbn [lstep].
    1: do 3 eexists; split; [reflexivity|]; cbn; tauto.
    1: do 3 eexists; split; [reflexivity|]; cbn; tauto.
    all: assert (E1' : l_first (snd (lsetx (x, s) y)) = true) by (destruct y; auto);
      assert (E2' : l_newx (snd (lsetx (x, s) y)) = true) by (destruct y; auto);
      destruct (U _ (fst (lsetx (x, s) y)) E1' E2') as (s' & c & e & EU & A & B & C); unfold residuals, objective; rewrite EU;
      do 3 eexists; (split; [reflexivity|]); cbn [snd]; (split; [exact A|]); (split; [exact B|]); intros _; cbn [to_ret]; unfold only_raises;
      (split; [destruct C as [->|[-> _]]; auto|]); intros HF; destruct C as [->|[_ [f Hf]]]; auto; destruct (HF _ _ Hf). }
  destruct G as (x' & s' & r & -> & A & B & C). specialize (IH (x', s') A B). destruct (lrun P F (x', s') ops) as [xs'' l]. constructor; auto.
Qed.
(** p and q have functions of a common object; in (p + q) + r those functions are listed twice, goals and
    weights are not: no evaluation of the sum in any history ever returns a value *)
Theorem C54_shared_object_three_problems {X} rmap p q r o :
  wellformed p -> from_methods p -> consecutive (p_funcs p) -> p_fail p <> None ->
  wellformed q -> from_methods q -> consecutive (p_funcs q) -> p_fail q <> None ->
  wellformed r -> from_methods r -> consecutive (p_funcs r) -> p_fail r <> None ->
  In o (map fst (p_funcs p)) -> In o (map fst (p_funcs q)) ->
  exists s t, padd rmap p q = inl s /\ padd rmap s r = inl t /\ (length (p_goals t) < length (p_funcs t))%nat /\
    forall (F : X -> func -> option (list R)) x ops,
      Forall2 (fun op res => is_eval op -> only_raises res /\ ((forall y f, F y f <> None) -> res = RErr (OErr EIndex))) ops (snd (lrun t F (x, lsq_init) ops)).
Proof.
  intros WP MP CP FP WQ MQ CQ FQ WR MR CR FR OP OQ.
  destruct (p_fail p) as [a|] eqn:Ea; [|congruence]. destruct (p_fail q) as [b|] eqn:Eb; [|congruence]. destruct (p_fail r) as [c|] eqn:Ec; [|congruence].
  assert (AP := addable_methods _ WP MP CP). assert (AQ := addable_methods _ WQ MQ CQ). assert (AR := addable_methods _ WR MR CR).
  destruct (from_methods_inv _ MP) as [NP IP]. destruct (from_methods_inv _ MQ) as [NQ IQ].
  set (fs := mkProb (p_goals p ++ p_goals q) (p_weights p ++ p_weights q) (p_parents p ++ p_parents q) (p_funcs p ++ p_funcs q) (Some (Rmax a b))). exists fs.
  assert (HS : Forall (fun o => return_fns fs o <> []) (p_parents fs)).
  { apply Forall_forall. intros o' Ho'. unfold fs in *. cbn [p_parents] in Ho'. unfold return_fns. cbn [p_funcs]. rewrite filter_app, map_app. intros EN. apply app_eq_nil in EN. destruct EN as [EN1 EN2].
    apply in_app_iff in Ho'. destruct Ho' as [Ho'|Ho'].
    - assert (X0 := parents_nonempty _ MP). rewrite Forall_forall in X0. now apply (X0 o').
    - assert (X0 := parents_nonempty _ MQ). rewrite Forall_forall in X0. now apply (X0 o'). }
  assert (HL : (length (p_funcs p) + length (p_funcs q) < length (regroup fs))%nat).
  { unfold regroup, return_fns. rewrite regroup_length. unfold fs. cbn [p_parents p_funcs]. rewrite fold_right_app_nat, !cnt_sum_app.
    rewrite (cnt_total (p_funcs p) (p_parents p)), (cnt_total (p_funcs q) (p_parents q)); auto; [|intros f Hf; apply IQ; eauto|intros f Hf; apply IP; eauto].
    apply in_map_iff in OP. destruct OP as (f1 & E1 & H1). apply in_map_iff in OQ. destruct OQ as (f2 & E2 & H2).
    enough (0 < fold_right (fun o n => cnt (p_funcs q) o + n)%nat 0%nat (p_parents p))%nat by (unfold func in *; lia).
    apply cnt_sum_pos with (o := o); [apply IP; eauto|]. unfold cnt. assert (HI : In f2 (filter (fun f => (fst f =? o)%nat) (p_funcs q))) by (apply filter_In; split; auto; now apply Nat.eqb_eq).
    destruct (filter (fun f => (fst f =? o)%nat) (p_funcs q)); [destruct HI|cbn; lia]. }
  exists (mkProb (p_goals fs ++ p_goals r) (p_weights fs ++ p_weights r) (p_parents fs ++ p_parents r) (regroup fs ++ p_funcs r) (Some (Rmax (Rmax a b) c))).
  split; [apply (padd_ok rmap p q a b); auto|].
  assert (W1 := WP); assert (W2 := WQ); assert (W3 := WR). destruct W1, W2, W3.
  assert (HG : (length (p_goals fs ++ p_goals r) < length (regroup fs ++ p_funcs r))%nat). { unfold fs at 1. cbn [p_goals]. rewrite !app_length in *. lia. }
  split; [|split; [exact HG|]].
  - unfold padd. rewrite Ec. cbn [p_fail fs]. unfold mk_depends.
    assert (existsb fneg (p_weights fs ++ p_weights r) = false) as -> by (apply existsb_fneg, Forall_app; split; auto; unfold fs; cbn; apply Forall_app; auto).
    f_equal. f_equal. unfold parent_return_fns. rewrite combine_app' by now rewrite map_length. rewrite map_app, concat_app, !depends_funcs by (auto; apply AR).
    f_equal. apply AR.
  - intros F x ops. apply too_many_history; auto. cbn [p_weights p_goals fs]. rewrite !app_length. lia.
Qed.
Print Assumptions C35_sum_of_many. Print Assumptions C54_shared_object_three_problems.
(** *** hypotheses are met *)
Definition one (o m : nat) (g : R) : problem := mkProb [g] [1] [o] [(o, m)] (Some 5).
Lemma one_ok o m g : wellformed (one o m g) /\ from_methods (one o m g) /\ consecutive (p_funcs (one o m g)) /\ p_fail (one o m g) <> None.
Proof.
  assert (FN1 : existsb fneg [1] = false) by (apply existsb_fneg; repeat constructor; lra).
  split; [constructor; cbn; auto; [discriminate|repeat constructor; lra]|]. split; [exists [g], [1], [(o, m)], (Some 5); unfold mk_funcs; now rewrite FN1|].
  split; [|discriminate]. exists [(o, [m])]. split; [reflexivity|]. split; repeat constructor; cbn; try tauto. discriminate.
Qed.
Example C54_example : exists p q r o, wellformed p /\ from_methods p /\ consecutive (p_funcs p) /\ p_fail p <> None /\
  wellformed q /\ from_methods q /\ consecutive (p_funcs q) /\ p_fail q <> None /\ wellformed r /\ from_methods r /\ consecutive (p_funcs r) /\ p_fail r <> None /\
  In o (map fst (p_funcs p)) /\ In o (map fst (p_funcs q)) /\ p_parents r <> p_parents p.
Proof.
  exists (one 0 0 1), (one 0 1 2), (one 1 0 3), 0%nat. destruct (one_ok 0 0 1) as (?&?&?&?), (one_ok 0 1 2) as (?&?&?&?), (one_ok 1 0 3) as (?&?&?&?).
  repeat (split; [assumption|]). split; [now left|]. split; [now left|discriminate].
Qed.
Example C35_example : (forall P, In P [one 0 0 1; one 1 1 2; one 2 0 3] -> wellformed P /\ from_methods P /\ consecutive (p_funcs P) /\ p_fail P <> None) /\
  disjoint_all (map p_parents [one 0 0 1; one 1 1 2; one 2 0 3]).
Proof.
  split; [intros P [<-|[<-|[<-|[]]]]; apply one_ok|]. cbn. repeat split; intros b o; intuition (subst; cbn in *; intuition congruence).
Qed.
Print Assumptions C35_sum_of_problems. Print Assumptions C35_refuted.
