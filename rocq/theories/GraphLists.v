(** Lemmas on dedup / sort / unique-dofs loop / index tables of GraphModel. *)
From Coq Require Import Sorting.Sorted.
From Verif Require Import ListAux DofsModel DofsSpec DofsProofs GraphModel GraphTrace.

Section L.
Context {V : Type}.
Implicit Types s : @st V.

Definition inj_on s (l : list nat) := forall a b, In a l -> In b l -> nm s a = nm s b -> a = b.

Lemma memn_spec s l o : memn s l o = true <-> exists b, In b l /\ nm s b = nm s o.
Proof.
  unfold memn. rewrite existsb_exists. split; intros (b & H1 & H2); exists b; split; auto.
  - now apply Nat.eqb_eq.
  - now apply Nat.eqb_eq.
Qed.

Lemma memn_In s l o : inj_on s (o :: l) -> (memn s l o = true <-> In o l).
Proof.
  intros Hi. rewrite memn_spec. split.
  - intros (b & Hb & E). assert (b = o) by (apply Hi; cbn; auto). congruence.
  - intros H; exists o; auto.
Qed.

Lemma dedup_acc_spec s acc l : inj_on s (acc ++ l) -> NoDup acc ->
  NoDup (dedup_acc s acc l) /\ forall x, In x (dedup_acc s acc l) <-> In x acc \/ In x l.
Proof.
  revert acc; induction l as [|a l IH]; intros acc Hi Hn; cbn.
  - split; auto. intros x; tauto.
  - assert (Hi2 : inj_on s (a :: acc)).
    { intros x y Hx Hy. apply Hi; apply in_or_app; cbn in *; intuition. }
    destruct (memn s acc a) eqn:E.
    + apply memn_In in E; auto. destruct (IH acc) as [H1 H2]; auto.
      { intros x y Hx Hy. apply Hi; apply in_app_or in Hx; apply in_app_or in Hy; apply in_or_app; cbn; intuition. }
      split; auto. intros x. rewrite H2. intuition (subst; auto).
    + assert (Ha : ~ In a acc) by (rewrite <- memn_In; eauto; congruence).
      destruct (IH (acc ++ [a])) as [H1 H2].
      { rewrite <- app_assoc. exact Hi. }
      { apply (Permutation_NoDup (l := a :: acc)); [apply Permutation_cons_append|]. now constructor. }
      split; auto. intros x. rewrite H2, in_app_iff. cbn. intuition.
Qed.

Lemma dedup_spec s l : inj_on s l ->
  NoDup (dedup s l) /\ forall x, In x (dedup s l) <-> In x l.
Proof.
  intros Hi. destruct (dedup_acc_spec s [] l Hi (NoDup_nil _)) as [H1 H2]. split; auto.
  intros x. unfold dedup. rewrite H2. cbn; tauto.
Qed.

Lemma dedup_acc_id s acc l : inj_on s (acc ++ l) -> NoDup (acc ++ l) -> dedup_acc s acc l = acc ++ l.
Proof.
  revert acc; induction l as [|a l IH]; intros acc Hi Hn; cbn.
  - now rewrite app_nil_r.
  - destruct (memn s acc a) eqn:E.
    + exfalso. apply memn_spec in E. destruct E as (b & Hb & E).
      assert (b = a) by (apply Hi; auto; apply in_or_app; cbn; auto). subst b.
      apply NoDup_remove_2 in Hn. apply Hn. apply in_or_app; auto.
    + rewrite IH; rewrite <- app_assoc; auto.
Qed.

Lemma insert_perm s a l : Permutation (insert_name s a l) (a :: l).
Proof.
  induction l as [|b l IH]; cbn; auto.
  destruct (_ <=? _); auto. rewrite IH. apply perm_swap.
Qed.
Lemma sort_perm s l : Permutation (sort_name s l) l.
Proof. induction l as [|a l IH]; cbn; auto. rewrite insert_perm. now constructor. Qed.

Definition le_name s a b := nm s a <= nm s b.
Lemma insert_sorted s a l : Sorted (le_name s) l -> Sorted (le_name s) (insert_name s a l).
Proof.
  induction l as [|b l IH]; intros H; cbn.
  - repeat constructor.
  - destruct (Nat.leb_spec (nm s a) (nm s b)).
    + constructor; auto.
    + inversion H as [|x r Hs Hh]; subst. constructor; auto.
      destruct l as [|c l]; cbn.
      * constructor. unfold le_name; lia.
      * destruct (Nat.leb_spec (nm s a) (nm s c)); constructor; unfold le_name in *; try lia.
        inversion Hh; auto.
Qed.
Lemma sort_sorted s l : Sorted (le_name s) (sort_name s l).
Proof. induction l as [|a l IH]; cbn; [constructor|]. now apply insert_sorted. Qed.

Lemma memn_ext s s' l o : (forall b, In b (o :: l) -> nm s' b = nm s b) -> memn s' l o = memn s l o.
Proof.
  intros H. unfold memn. induction l as [|a l IH]; cbn; auto.
  rewrite IH by (intros; apply H; cbn in *; intuition).
  now rewrite (H a), (H o) by (cbn; auto).
Qed.
Lemma dedup_acc_ext s s' acc l : (forall b, In b (acc ++ l) -> nm s' b = nm s b) ->
  dedup_acc s' acc l = dedup_acc s acc l.
Proof.
  revert acc; induction l as [|a l IH]; intros acc H; cbn; auto.
  rewrite (memn_ext s s') by (intros b Hb; apply H; apply in_or_app; cbn in *; intuition).
  apply IH. intros b Hb. apply H. destruct (memn s acc a); rewrite ?in_app_iff in *; cbn in *; intuition.
Qed.
Lemma insert_ext s s' a l : (forall b, In b (a :: l) -> nm s' b = nm s b) -> insert_name s' a l = insert_name s a l.
Proof.
  induction l as [|c l IH]; intros H; cbn; auto.
  rewrite (H a), (H c) by (cbn; auto). destruct (_ <=? _); auto. f_equal. apply IH.
  intros; apply H; cbn in *; intuition.
Qed.
Lemma sort_ext s s' l : (forall b, In b l -> nm s' b = nm s b) -> sort_name s' l = sort_name s l.
Proof.
  induction l as [|a l IH]; intros H; auto.
  change (insert_name s' a (sort_name s' l) = insert_name s a (sort_name s l)).
  rewrite IH by (intros; apply H; now right). apply insert_ext.
  intros b [<-|Hb]; [apply H; now left|]. apply H; right. eapply Permutation_in; [apply sort_perm|]; eauto.
Qed.

(* unique dofs *)
Lemma uniq_loop_spec s seen l :
  NoDup (map (dof_of s) (uniq_loop s seen l)) /\
  (forall D, In D (map (dof_of s) (uniq_loop s seen l)) <-> In D (map (dof_of s) l) /\ ~ In D seen) /\
  (forall o, In o (uniq_loop s seen l) -> In o l).
Proof.
  revert seen; induction l as [|a l IH]; intros seen; cbn.
  - split; [constructor|]. split; intros; tauto.
  - destruct (existsb (Nat.eqb (dof_of s a)) seen) eqn:E.
    + destruct (IH seen) as (H1 & H2 & H3). split; auto. split.
      * intros D. rewrite H2. apply existsb_exists in E. destruct E as (x & Hx & Ex).
        apply Nat.eqb_eq in Ex. subst x. intuition (subst; auto). contradiction.
      * intros o Ho; right; auto.
    + assert (Hn : ~ In (dof_of s a) seen).
      { intros Hin. assert (existsb (Nat.eqb (dof_of s a)) seen = true); [|congruence].
        apply existsb_exists. exists (dof_of s a). split; auto. apply Nat.eqb_refl. }
      destruct (IH (dof_of s a :: seen)) as (H1 & H2 & H3). cbn. split; [|split].
      * constructor; auto. rewrite H2. cbn. tauto.
      * intros D. rewrite H2. cbn. destruct (Nat.eq_dec (dof_of s a) D) as [<-|N]; intuition.
      * intros o [<-|Ho]; auto.
Qed.

(** the kept object is the first in the list with its DOFs *)
Lemma uniq_loop_first s seen l l1 o l2 :
  l = l1 ++ o :: l2 -> ~ In (dof_of s o) seen -> (forall b, In b l1 -> dof_of s b <> dof_of s o) ->
  In o (uniq_loop s seen l).
Proof.
  revert seen l; induction l1 as [|b l1 IH]; intros seen l -> Hs Hb; cbn.
  - destruct (existsb (Nat.eqb (dof_of s o)) seen) eqn:E; [|now left].
    apply existsb_exists in E. destruct E as (x & Hx & Ex). apply Nat.eqb_eq in Ex. congruence.
  - destruct (existsb _ seen).
    + eapply IH; eauto. intros; apply Hb; now right.
    + right. eapply IH; eauto; [|intros; apply Hb; now right].
      intros [H|H]; [|contradiction]. apply (Hb b); [now left|auto].
Qed.

Lemma uniq_loop_ext s s' seen l : (forall o, In o l -> dof_of s' o = dof_of s o) ->
  uniq_loop s' seen l = uniq_loop s seen l.
Proof.
  revert seen; induction l as [|a l IH]; intros seen H; cbn; auto.
  rewrite (H a) by now left. destruct (existsb _ seen); [|f_equal]; apply IH; intros; apply H; now right.
Qed.

Lemma uniq_loop_nonempty s l : l <> [] -> uniq_loop s [] l <> [].
Proof. destruct l; cbn; congruence. Qed.

Lemma NoDup_map_inv' {A B} (f : A -> B) l : NoDup (map f l) -> NoDup l.
Proof. apply NoDup_map_inv. Qed.

(* dict *)
Lemma dict_set_new s d k v : (forall k' v', In (k', v') d -> nm s k' <> nm s k) -> dict_set s d k v = d ++ [(k, v)].
Proof.
  induction d as [|[k' v'] d IH]; intros H; cbn; auto.
  destruct (Nat.eqb_spec (nm s k') (nm s k)) as [E|E].
  - exfalso. apply (H k' v'); cbn; auto.
  - rewrite IH; auto. intros; apply (H k'0 v'0); cbn; auto.
Qed.

Lemma dict_zip_combine_gen s ks vs acc :
  inj_on s (map fst acc ++ ks) -> NoDup (map fst acc ++ ks) ->
  fold_left (fun d kv => dict_set s d (fst kv) (snd kv)) (combine ks vs) acc = acc ++ combine ks vs.
Proof.
  revert vs acc; induction ks as [|k ks IH]; intros [|v vs] acc Hi Hn; cbn; rewrite ?app_nil_r; auto.
  rewrite dict_set_new.
  - rewrite IH; rewrite <- ?app_assoc; auto; rewrite map_app, <- app_assoc; auto.
  - intros k' v' Hk E. apply (in_map fst) in Hk; cbn in Hk.
    assert (k' = k) by (apply Hi; auto; apply in_or_app; cbn; auto). subst k'.
    apply NoDup_remove_2 in Hn. apply Hn. apply in_or_app; auto.
Qed.
Lemma dict_zip_combine s ks vs : inj_on s ks -> NoDup ks -> dict_zip s ks vs = combine ks vs.
Proof. intros. unfold dict_zip. now rewrite dict_zip_combine_gen. Qed.

Lemma dict_set_ext s s' d k v : (forall b, In b (k :: map fst d) -> nm s' b = nm s b) -> dict_set s' d k v = dict_set s d k v.
Proof.
  induction d as [|[k' v'] d IH]; intros H; cbn; auto.
  rewrite (H k), (H k') by (cbn; auto). destruct (_ =? _); auto. f_equal. apply IH.
  intros; apply H; cbn in *; intuition.
Qed.
Lemma dict_set_keys s d k v b : In b (map fst (dict_set s d k v)) -> In b (k :: map fst d).
Proof.
  induction d as [|[k' v'] d IH]; cbn; [intuition|]. destruct (_ =? _); cbn; intuition.
  cbn in *; intuition.
Qed.
Lemma dict_zip_ext s s' ks vs : (forall b, In b ks -> nm s' b = nm s b) -> dict_zip s' ks vs = dict_zip s ks vs.
Proof.
  intros H. unfold dict_zip.
  assert (G : forall ks vs acc, (forall b, In b (map fst acc ++ ks) -> nm s' b = nm s b) ->
     fold_left (fun d kv => dict_set s' d (fst kv) (snd kv)) (combine ks vs) acc
     = fold_left (fun d kv => dict_set s d (fst kv) (snd kv)) (combine ks vs) acc).
  { clear. induction ks as [|k ks IH]; intros [|v vs] acc H; cbn; auto.
    rewrite (dict_set_ext s s') by (intros b Hb; apply H; apply in_or_app; cbn in *; intuition).
    apply IH. intros b Hb. apply H. apply in_app_or in Hb. apply in_or_app.
    destruct Hb as [Hb|Hb]; [|cbn; auto]. apply dict_set_keys in Hb. cbn in *; intuition. }
  apply G. exact H.
Qed.

(* blocks *)
Lemma total_spec sizes : total sizes = list_sum sizes.
Proof.
  unfold total, list_sum. rewrite <- fold_left_rev_right.
  assert (G : forall l n, fold_left Nat.add l n = n + fold_right Nat.add 0 l).
  { induction l as [|a l IH]; intros n; cbn; [lia|]. rewrite IH. lia. }
  rewrite fold_left_rev_right. now rewrite G.
Qed.

Lemma blocks_length n sizes : length (blocks n sizes) = length sizes.
Proof. revert n; induction sizes; intros; cbn; auto. Qed.

Lemma last_combine_blocks (ks sizes : list nat) n (d : nat * (nat * nat)) : length ks = length sizes -> ks <> [] ->
  snd (snd (last (combine ks (blocks n sizes)) d)) = n + list_sum sizes.
Proof.
  revert ks n; induction sizes as [|k sizes IH]; intros [|o ks] n Hl Hn; cbn in *; try discriminate; try congruence.
  destruct ks as [|o2 ks]; destruct sizes as [|k2 sizes]; cbn in *; try discriminate.
  - lia.
  - specialize (IH (o2 :: ks) (n + k)). cbn in IH. rewrite IH; cbn in *; try lia. congruence.
Qed.
End L.
