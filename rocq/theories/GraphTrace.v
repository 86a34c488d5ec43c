(** Order of visits of the recursions over children, and what they compute. *)
From Verif Require Import ListAux DofsModel DofsSpec DofsProofs GraphModel.

Section Trace.
Variable ord : list nat -> list nat.
Hypothesis ord_perm : forall l, Permutation (ord l) l.

Fixpoint concat_opt {A} (l : list (option (list A))) : option (list A) :=
  match l with
  | [] => Some []
  | None :: _ => None
  | Some x :: r => match concat_opt r with None => None | Some y => Some (x ++ y) end
  end.

Fixpoint trace (ch : nat -> list nat) (k : nat) (a : nat) : option (list nat) :=
  match k with
  | 0 => None
  | S k => match concat_opt (map (trace ch k) (ord (ch a))) with
           | None => None | Some l => Some (a :: l) end
  end.

Lemma visit_trace {V} (f : @st V -> nat -> @st V) :
  (forall s a, chi (f s a) = chi s) ->
  forall k s a, visit ord f k s a =
    match trace (chi s) k a with None => None | Some tr => Some (fold_left f tr s) end.
Proof.
  intros Hf k; induction k as [|k IH]; intros s a; cbn [visit trace]; auto.
  rewrite Hf.
  assert (G : forall l s0, chi s0 = chi s ->
    fold_left (fun os c => match os with None => None | Some s' => visit ord f k s' c end) l (Some s0)
    = match concat_opt (map (trace (chi s) k) l) with None => None | Some tr => Some (fold_left f tr s0) end).
  { induction l as [|c l IHl]; intros s0 H0; cbn [fold_left map concat_opt]; auto.
    rewrite IH, H0. destruct (trace (chi s) k c) as [t1|] eqn:E1.
    - rewrite IHl.
      + destruct (concat_opt _); auto. now rewrite fold_left_app.
      + clear -Hf H0. revert s0 H0. induction t1 as [|b t1 IHt]; intros s0 H0; cbn; auto.
        apply IHt. now rewrite Hf.
    - clear. induction l; cbn; auto. }
  rewrite G by apply Hf. destruct (concat_opt _); auto.
Qed.

Lemma concat_opt_some {A} (l : list (option (list A))) r :
  concat_opt l = Some r -> exists ls, l = map Some ls /\ r = concat ls.
Proof.
  revert r; induction l as [|[x|] l IH]; cbn; intros r H; try discriminate.
  - injection H as <-. exists []; auto.
  - destruct (concat_opt l) as [y|]; [|discriminate]. injection H as <-.
    destruct (IH y eq_refl) as (ls & -> & ->). exists (x :: ls); auto.
Qed.

Lemma trace_cases ch k a tr : trace ch k a = Some tr ->
  exists k' ls, k = S k' /\ map (trace ch k') (ord (ch a)) = map Some ls /\ tr = a :: concat ls.
Proof.
  destruct k as [|k]; cbn; [discriminate|].
  destruct (concat_opt _) as [l|] eqn:E; [|discriminate].
  injection 1 as <-. destruct (concat_opt_some _ _ E) as (ls & H1 & ->). eauto.
Qed.

Lemma map_Some_split {A B} (f : A -> option B) l ls c :
  map f l = map Some ls -> In c l -> exists t, f c = Some t /\ In t ls.
Proof.
  revert ls; induction l as [|a l IH]; intros [|b ls] H Hc; cbn in *; try discriminate; try tauto.
  injection H as H1 H2. destruct Hc as [<-|Hc]; eauto.
  destruct (IH _ H2 Hc) as (t & ? & ?); eauto.
Qed.

Lemma map_Some_split2 {A B} (f : A -> option B) l ls t :
  map f l = map Some ls -> In t ls -> exists c, f c = Some t /\ In c l.
Proof.
  revert ls; induction l as [|a l IH]; intros [|b ls] H Hc; cbn in *; try discriminate; try tauto.
  injection H as H1 H2. destruct Hc as [<-|Hc]; eauto.
  destruct (IH _ H2 Hc) as (c & ? & ?); eauto.
Qed.

Lemma trace_head ch k a tr : trace ch k a = Some tr -> In a tr.
Proof. intros H; apply trace_cases in H. destruct H as (k' & ls & _ & _ & ->). now left. Qed.

Lemma in_concat_split {A} (ls : list (list A)) l1 (p : A) l2 :
  concat ls = l1 ++ p :: l2 -> exists t m1 m2 r, In t ls /\ t = m1 ++ p :: m2 /\ l2 = m2 ++ r.
Proof.
  revert l1; induction ls as [|t ls IH]; intros l1 H; cbn in H.
  - destruct l1; discriminate.
  - revert l1 H. assert (K : forall t l1, t ++ concat ls = l1 ++ p :: l2 ->
       (exists m2, t = l1 ++ p :: m2 /\ l2 = m2 ++ concat ls) \/ (exists l1', concat ls = l1' ++ p :: l2)).
    { clear. induction t as [|x t IHt]; intros l1 H; cbn in H.
      - right; eauto.
      - destruct l1 as [|y l1]; cbn in H.
        + injection H as H1 H2. subst. left. exists t. auto.
        + injection H as H1 H; subst y. destruct (IHt _ H) as [(m2 & -> & ->)|(l1' & E)].
          * left; exists m2; auto.
          * right; eauto. }
    intros l1 H. destruct (K t l1 H) as [(m2 & -> & ->)|(l1' & E)].
    + exists (l1 ++ p :: m2), l1, m2, (concat ls). cbn; auto.
    + destruct (IH _ E) as (t' & m1 & m2 & r & Ht & Ht' & Hl). exists t', m1, m2, r. cbn; auto.
Qed.

(** every visit of a node is followed by a visit of each of its children *)
Lemma trace_followed ch k a tr : trace ch k a = Some tr ->
  forall l1 p l2 d, tr = l1 ++ p :: l2 -> In d (ch p) -> In d l2.
Proof.
  revert a tr; induction k as [|k IH]; intros a tr H; [discriminate|].
  apply trace_cases in H. destruct H as (k' & ls & Hk & Hls & ->). injection Hk as <-.
  intros [|b l1] p l2 d E Hd; cbn in E; injection E as E1 E2.
  - subst p l2. apply in_concat.
    assert (Hd' : In d (ord (ch a))) by (eapply Permutation_in; [symmetry; apply ord_perm|]; auto).
    destruct (map_Some_split _ _ _ _ Hls Hd') as (t & Ht & Hin).
    exists t; split; auto. eapply trace_head; eauto.
  - destruct (in_concat_split _ _ _ _ E2) as (t & m1 & m2 & r & Hin & Ht & ->).
    destruct (map_Some_split2 _ _ _ _ Hls Hin) as (c & Hc & _).
    apply in_or_app; left. eapply (IH c t Hc); eauto.
Qed.

Lemma trace_closed ch k a tr p d : trace ch k a = Some tr -> In p tr -> In d (ch p) -> In d tr.
Proof.
  intros H Hp Hd. apply in_split in Hp. destruct Hp as (l1 & l2 & ->).
  apply in_or_app; right; right. eapply trace_followed; eauto.
Qed.

Inductive reachp (ch : nat -> list nat) : nat -> nat -> Prop :=
| rp_one a b : In b (ch a) -> reachp ch a b
| rp_step a b c : In b (ch a) -> reachp ch b c -> reachp ch a c.

Lemma reachp_trans ch a b c : reachp ch a b -> reachp ch b c -> reachp ch a c.
Proof. induction 1; intros; [eapply rp_step; eauto|]. eapply rp_step; eauto. Qed.

Lemma reachp_snoc ch a b c : reachp ch a b -> In c (ch b) -> reachp ch a c.
Proof. intros H Hc. eapply reachp_trans; eauto. now apply rp_one. Qed.

Lemma trace_sound ch k a tr b : trace ch k a = Some tr -> In b tr -> b = a \/ reachp ch a b.
Proof.
  revert a tr; induction k as [|k IH]; intros a tr H Hb; [discriminate|].
  apply trace_cases in H. destruct H as (k' & ls & Hk & Hls & ->). injection Hk as <-.
  destruct Hb as [<-|Hb]; auto. right. apply in_concat in Hb. destruct Hb as (t & Ht & Hb).
  destruct (map_Some_split2 _ _ _ _ Hls Ht) as (c & Hc & Hin).
  assert (In c (ch a)) by (eapply Permutation_in; [apply ord_perm|]; auto).
  destruct (IH _ _ Hc Hb) as [->|R]; [now apply rp_one| eapply rp_step; eauto].
Qed.

Lemma trace_complete ch k a tr b : trace ch k a = Some tr -> (b = a \/ reachp ch a b) -> In b tr.
Proof.
  intros H [->|R]; [eapply trace_head; eauto|].
  assert (G : forall x y, reachp ch x y -> In x tr -> In y tr).
  { induction 1; intros; [eapply trace_closed; eauto|]. apply IHreachp. eapply trace_closed; eauto. }
  eapply G; eauto. eapply trace_head; eauto.
Qed.

Lemma trace_followed_plus ch k a tr : trace ch k a = Some tr ->
  forall p d, reachp ch p d -> forall l1 l2, tr = l1 ++ p :: l2 -> In d l2.
Proof.
  intros H p d R. induction R as [x y Hy|x y z Hy R IH]; intros l1 l2 E.
  - eapply trace_followed; eauto.
  - assert (In y l2) as Hy2 by (eapply trace_followed; eauto).
    apply in_split in Hy2. destruct Hy2 as (m1 & m2 & ->).
    apply in_or_app; right; right. apply (IH (l1 ++ x :: m1) m2).
    rewrite E, <- app_assoc. reflexivity.
Qed.

Lemma last_occurrence (d : nat) l : In d l -> exists l1 l2, l = l1 ++ d :: l2 /\ ~ In d l2.
Proof.
  induction l as [|b l IH]; intros H; [destruct H|].
  destruct (in_dec Nat.eq_dec d l) as [Hd|Hd].
  - destruct (IH Hd) as (l1 & l2 & -> & Hn). exists (b :: l1), l2; auto.
  - destruct H as [->|H]; [|tauto]. exists [], l; auto.
Qed.

Lemma trace_acyclic ch k a tr x : trace ch k a = Some tr -> In x tr -> ~ reachp ch x x.
Proof.
  intros H Hx R. destruct (last_occurrence _ _ Hx) as (l1 & l2 & E & Hn).
  apply Hn. eapply trace_followed_plus; eauto.
Qed.

(** termination: on a graph whose child edges strictly increase a rank bounded by [N], fuel
    [N - rank a + 1] is enough *)
Lemma trace_terminates ch (rank : nat -> nat) N :
  (forall p c, In c (ch p) -> rank p < rank c) -> (forall c, rank c <= N) ->
  forall k a, N - rank a < k -> exists tr, trace ch k a = Some tr.
Proof.
  intros Hr HN k; induction k as [|k IH]; intros a Hk; [lia|]. cbn.
  assert (G : forall l, (forall c, In c l -> In c (ch a)) -> exists t, concat_opt (map (trace ch k) l) = Some t).
  { induction l as [|c l IHl]; intros Hl; cbn; [eauto|].
    assert (Hc := Hr a c (Hl c (or_introl eq_refl))). assert (Hc2 := HN c).
    destruct (IH c ltac:(lia)) as (t & ->).
    destruct IHl as (t2 & ->); [intros; apply Hl; now right|]. eauto. }
  destruct (G (ord (ch a))) as (t & ->); [|eauto].
  intros c Hc. eapply Permutation_in; [apply ord_perm|]; auto.
Qed.

(** ** What a fold over a trace computes *)
Section Fold.
Context {X : Type}.
Variables (parents : nat -> list nat) (g : (nat -> X) -> nat -> X).
Hypothesis g_ext : forall F F' d, (forall p, In p (parents d) -> F p = F' p) -> g F d = g F' d.
Definition fstep (F : nat -> X) (a : nat) : nat -> X := fup F a (g F a).

Lemma fup_same {A} (F : nat -> A) a v : fup F a v a = v.
Proof. unfold fup. now rewrite Nat.eqb_refl. Qed.
Lemma fup_other {A} (F : nat -> A) a v b : b <> a -> fup F a v b = F b.
Proof. unfold fup. intros. destruct (Nat.eqb_spec b a); congruence. Qed.

Lemma fold_out tr F d : ~ In d tr -> fold_left fstep tr F d = F d.
Proof.
  revert F; induction tr as [|a tr IH]; intros F Hd; cbn; auto.
  rewrite IH by (intros ?; apply Hd; now right). unfold fstep. apply fup_other.
  intros ->; apply Hd; now left.
Qed.

Lemma fold_in tr F d :
  (forall l1 p l2 d, tr = l1 ++ p :: l2 -> In p (parents d) -> In d tr -> In d l2) ->
  In d tr -> fold_left fstep tr F d = g (fold_left fstep tr F) d.
Proof.
  intros Hfol Hd. destruct (last_occurrence _ _ Hd) as (l1 & l2 & E & Hn).
  assert (Hpar : forall p, In p (parents d) -> ~ In p (d :: l2)).
  { intros p Hp Hin. apply in_split in Hin. destruct Hin as (m1 & m2 & E2).
    assert (In d m2) as Hd2 by (apply (Hfol (l1 ++ m1) p m2 d); auto; rewrite E, E2, <- app_assoc; reflexivity).
    destruct m1 as [|b m1]; cbn in E2; injection E2 as E3 E4.
    - subst. auto.
    - apply Hn. rewrite E4. apply in_or_app; right; now right. }
  rewrite E at 1. rewrite fold_left_app. cbn [fold_left].
  rewrite fold_out by auto. unfold fstep at 1. rewrite fup_same.
  apply g_ext. intros p Hp. rewrite E, fold_left_app. cbn [fold_left].
  assert (Hp' := Hpar p Hp).
  rewrite (fold_out l2) by (intros ?; apply Hp'; now right).
  unfold fstep at 2. symmetry. apply fup_other. intros ->. apply Hp'; now left.
Qed.
End Fold.
End Trace.
