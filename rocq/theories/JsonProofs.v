(** Proofs about saving and loading (JsonModel.v). *)
From Verif Require Import ListAux DofsModel JsonModel.

Section ValInd.
Variable P : val -> Prop.
Hypothesis HA : forall a, P (VAtom a).
Hypothesis HL : forall l, Forall P l -> P (VList l).
Hypothesis HD : forall l, Forall (fun e => P (snd e)) l -> P (VDict l).
Hypothesis HO : forall o, P (VObj o).
Hypothesis HM : forall o m, P (VMeth o m).
Fixpoint val_ind' (v : val) : P v :=
  match v with
  | VAtom a => HA a | VObj o => HO o | VMeth o m => HM o m
  | VList l => HL l ((fix go l : Forall P l := match l with [] => Forall_nil _ | x :: r => Forall_cons x (val_ind' x) (go r) end) l)
  | VDict l => HD l ((fix go l : Forall (fun e => P (snd e)) l := match l with [] => Forall_nil _ | x :: r => Forall_cons x (val_ind' (snd x)) (go r) end) l)
  end.
End ValInd.

(** objects occurring directly / through a bound method in a value *)
Fixpoint orefs (v : val) : list nat :=
  match v with
  | VAtom _ | VMeth _ _ => [] | VObj o => [o]
  | VList l => concat (map orefs l) | VDict l => concat (map (fun e => orefs (snd e)) l)
  end.
Fixpoint mrefs (v : val) : list nat :=
  match v with
  | VAtom _ | VObj _ => [] | VMeth o _ => [o]
  | VList l => concat (map mrefs l) | VDict l => concat (map (fun e => mrefs (snd e)) l)
  end.
(** user dictionaries only use ordinary string keys *)
Fixpoint plain_keys (v : val) : Prop :=
  match v with
  | VList l => (fix all l := match l with [] => True | x :: r => plain_keys x /\ all r end) l
  | VDict l => (fix all l := match l with [] => True | x :: r => ((exists n, fst x = KUser n) /\ plain_keys (snd x)) /\ all r end) l
  | _ => True
  end.
Lemma plain_list l : plain_keys (VList l) <-> Forall plain_keys l.
Proof. cbn. induction l as [|x l IH]; [split; auto|]. split. - intros [H1 H2]. constructor; tauto. - intros H. inversion_clear H. tauto. Qed.
Lemma plain_dict l : plain_keys (VDict l) <-> Forall (fun e => (exists n, fst e = KUser n) /\ plain_keys (snd e)) l.
Proof. cbn. induction l as [|x l IH]; [split; auto|]. split. - intros [H1 H2]. constructor; tauto. - intros H. inversion_clear H. tauto. Qed.

Lemma orefs_list l o : In o (orefs (VList l)) <-> exists v, In v l /\ In o (orefs v).
Proof. cbn. rewrite in_concat. split. - intros (x & H1 & H2). apply in_map_iff in H1. destruct H1 as (v & <- & H1). eauto.
  - intros (v & H1 & H2). exists (orefs v). split; auto. apply in_map_iff. eauto. Qed.
Lemma mrefs_list l o : In o (mrefs (VList l)) <-> exists v, In v l /\ In o (mrefs v).
Proof. cbn. rewrite in_concat. split. - intros (x & H1 & H2). apply in_map_iff in H1. destruct H1 as (v & <- & H1). eauto.
  - intros (v & H1 & H2). exists (mrefs v). split; auto. apply in_map_iff. eauto. Qed.
Lemma orefs_dict l o : In o (orefs (VDict l)) <-> exists e, In e l /\ In o (orefs (snd e)).
Proof. cbn. rewrite in_concat. split. - intros (x & H1 & H2). apply in_map_iff in H1. destruct H1 as (v & <- & H1). eauto.
  - intros (v & H1 & H2). exists (orefs (snd v)). split; auto. apply in_map_iff. eauto. Qed.
Lemma mrefs_dict l o : In o (mrefs (VDict l)) <-> exists e, In e l /\ In o (mrefs (snd e)).
Proof. cbn. rewrite in_concat. split. - intros (x & H1 & H2). apply in_map_iff in H1. destruct H1 as (v & <- & H1). eauto.
  - intros (v & H1 & H2). exists (mrefs (snd v)). split; auto. apply in_map_iff. eauto. Qed.

Lemma get_put {A} n (v : A) d m : get m (put n v d) = if n =? m then Some v else get m d.
Proof.
  induction d as [|[p q] d IH]; cbn. { now destruct (n =? m). }
  destruct (Nat.eqb_spec p n) as [->|Hp]; cbn.
  - destruct (Nat.eqb_spec n m); auto.
  - rewrite IH. destruct (Nat.eqb_spec p m) as [->|]; auto. destruct (Nat.eqb_spec n m) as [->|]; auto. congruence.
Qed.
Lemma get_In {A} n (d : list (nat * A)) v : get n d = Some v -> In (n, v) d.
Proof. induction d as [|[p q] d IH]; cbn; [discriminate|]. destruct (Nat.eqb_spec p n) as [->|]; auto. intros H; injection H as ->; auto. Qed.
Lemma get_keys {A} n (d : list (nat * A)) : (exists v, get n d = Some v) <-> In n (map fst d).
Proof.
  induction d as [|[p q] d IH]; cbn. { split; [intros (v & H); discriminate|tauto]. }
  destruct (Nat.eqb_spec p n) as [->|Hp]; [split; eauto|]. rewrite IH. split; auto. intros [|]; auto. congruence.
Qed.
Lemma put_keys_nodup {A} n (v : A) d : NoDup (map fst d) -> NoDup (map fst (put n v d)).
Proof.
  induction d as [|[p q] d IH]; cbn; [repeat constructor; auto|]. intros N. inversion_clear N as [|? ? N1 N2].
  destruct (Nat.eqb_spec p n) as [->|Hp]; cbn; constructor; auto. intros H. apply N1. rewrite <- get_keys in *.
  destruct H as (x & H). rewrite get_put in H. destruct (Nat.eqb_spec n p); [congruence|eauto].
Qed.

Lemma Forall2_impl' {A B} (P P' : A -> B -> Prop) l l' : (forall a b, P a b -> P' a b) -> Forall2 P l l' -> Forall2 P' l l'.
Proof. induction 2; auto. Qed.
(** ** loading: generic list lemma *)
Section MapD.
Variables (OK : dst -> Prop) (stp : dst -> dst -> Prop).
Hypothesis stp_refl : forall t, stp t t.
Hypothesis stp_trans : forall t1 t2 t3, stp t1 t2 -> stp t2 t3 -> stp t1 t3.
Lemma mapD_decodes {A C E} (f : nat -> dst -> E -> dres C) (g : A -> E) (Rel : dst -> A -> C -> Prop) l :
  (forall t t' a c, OK t -> stp t t' -> Rel t a c -> Rel t' a c) ->
  (forall a, In a l -> exists F, forall fuel, F <= fuel -> forall t, OK t -> exists c t',
      f fuel t (g a) = DOk c t' /\ OK t' /\ stp t t' /\ Rel t' a c) ->
  exists F, forall fuel, F <= fuel -> forall t, OK t -> exists cs t',
    mapD (f fuel) t (map g l) = DOk cs t' /\ OK t' /\ stp t t' /\ Forall2 (Rel t') l cs.
Proof using stp_refl stp_trans.
  intros Mono. induction l as [|a l IH]; intros H.
  - exists 0. intros fuel _ t O. exists [], t. cbn. auto.
  - destruct (H a (or_introl eq_refl)) as (F1 & H1). destruct (IH (fun a' I => H a' (or_intror I))) as (F2 & H2).
    exists (F1 + F2). intros fuel Hf t O. destruct (H1 fuel ltac:(lia) t O) as (c & t1 & E1 & O1 & X1 & R1).
    destruct (H2 fuel ltac:(lia) t1 O1) as (cs & t2 & E2 & O2 & X2 & R2).
    exists (c :: cs), t2. cbn. rewrite E1, E2. split; auto. split; auto. split; [eauto|]. constructor; auto. eapply Mono; [| |exact R1]; auto.
Qed.
Variable grw : dst -> dst -> (nat -> Prop) -> Prop.
Hypothesis grw_refl : forall t V, grw t t V.
Hypothesis grw_trans : forall t1 t2 t3 V, grw t1 t2 V -> grw t2 t3 V -> grw t1 t3 V.
Lemma mapD_grow {A C E} (f : nat -> dst -> E -> dres C) (g : A -> E) (Rel : dst -> A -> C -> Prop) (V : nat -> Prop) l :
  (forall t t' a c, OK t -> stp t t' -> Rel t a c -> Rel t' a c) ->
  (forall a, In a l -> exists F, forall fuel, F <= fuel -> forall t, OK t -> exists c t',
      f fuel t (g a) = DOk c t' /\ (OK t' /\ grw t t' V) /\ stp t t' /\ Rel t' a c) ->
  exists F, forall fuel, F <= fuel -> forall t, OK t -> exists cs t',
    mapD (f fuel) t (map g l) = DOk cs t' /\ OK t' /\ grw t t' V /\ stp t t' /\ Forall2 (Rel t') l cs.
Proof using stp_refl stp_trans grw_refl grw_trans.
  intros Mono. induction l as [|a l IH]; intros H.
  - exists 0. intros fuel _ t O. exists [], t. cbn. auto.
  - destruct (H a (or_introl eq_refl)) as (F1 & H1). destruct (IH (fun a' I => H a' (or_intror I))) as (F2 & H2).
    exists (F1 + F2). intros fuel Hf t O. destruct (H1 fuel ltac:(lia) t O) as (c & t1 & E1 & (O1 & N1) & X1 & R1).
    destruct (H2 fuel ltac:(lia) t1 O1) as (cs & t2 & E2 & O2 & N2 & X2 & R2).
    exists (c :: cs), t2. cbn. rewrite E1, E2. split; auto. split; auto. split; [eauto|]. split; [eauto|]. constructor; auto. eapply Mono; [| |exact R1]; auto.
Qed.
End MapD.

(** the contents of a value, unfolded to depth [r] *)
Inductive tree := TCut | TAtom (a : nat) | TList (l : list tree) | TDict (l : list (jkey * tree))
  | TObj (c : nat) (fs : list (nat * tree)) | TMeth (m c : nat) (fs : list (nat * tree)).
Fixpoint unf (T : nat -> obj) (r : nat) (v : val) : tree :=
  match r with
  | 0 => TCut
  | Datatypes.S r =>
    match v with
    | VAtom a => TAtom a | VList l => TList (map (unf T r) l) | VDict l => TDict (map (fun e => (fst e, unf T r (snd e))) l)
    | VObj o => TObj (o_cls (T o)) (map (fun f => (fst f, unf T r (snd f))) (o_fields (T o)))
    | VMeth o m => TMeth m (o_cls (T o)) (map (fun f => (fst f, unf T r (snd f))) (o_fields (T o)))
    end
  end.
Definition heap_of (l : list obj) (i : nat) : obj := nth i l (mkObj 0 0 []).
Definition refs_lt (n : nat) (v : val) := forall o, In o (orefs v ++ mrefs v) -> o < n.
Definition closedM (l : list obj) := forall i f, i < length l -> In f (o_fields (heap_of l i)) -> refs_lt i (snd f).
Lemma refs_lt_list n l : refs_lt n (VList l) <-> forall v, In v l -> refs_lt n v.
Proof.
  unfold refs_lt. split.
  - intros H v Hv o Ho. apply H. apply in_app_iff in Ho. apply in_app_iff. rewrite orefs_list, mrefs_list. destruct Ho; eauto.
  - intros H o Ho. apply in_app_iff in Ho. rewrite orefs_list, mrefs_list in Ho. destruct Ho as [(v & ? & ?)|(v & ? & ?)]; apply (H v); auto; apply in_app_iff; auto.
Qed.
Lemma refs_lt_dict n l : refs_lt n (VDict l) <-> forall e, In e l -> refs_lt n (snd e).
Proof.
  unfold refs_lt. split.
  - intros H v Hv o Ho. apply H. apply in_app_iff in Ho. apply in_app_iff. rewrite orefs_dict, mrefs_dict. destruct Ho; eauto.
  - intros H o Ho. apply in_app_iff in Ho. rewrite orefs_dict, mrefs_dict in Ho. destruct Ho as [(v & ? & ?)|(v & ? & ?)]; apply (H v); auto; apply in_app_iff; auto.
Qed.
Lemma unf_app l l' : closedM l -> forall r v, refs_lt (length l) v -> unf (heap_of (l ++ l')) r v = unf (heap_of l) r v.
Proof.
  intros C. assert (E : forall i, i < length l -> heap_of (l ++ l') i = heap_of l i) by (intros; unfold heap_of; now rewrite app_nth1).
  induction r as [|r IH]; intros v L; auto. destruct v as [a|k|k|o|o m]; cbn [unf]; auto.
  - f_equal. apply map_ext_in. intros x Hx. apply IH. now apply (proj1 (refs_lt_list _ _) L).
  - f_equal. apply map_ext_in. intros x Hx. f_equal. apply IH. now apply (proj1 (refs_lt_dict _ _) L).
  - assert (o < length l) by (apply L; cbn; auto). rewrite E by auto. f_equal. apply map_ext_in. intros f Hf. f_equal. apply IH.
    intros x Hx. assert (x < o) by (eapply C; eauto). lia.
  - assert (o < length l) by (apply L; cbn; auto). rewrite E by auto. f_equal. apply map_ext_in. intros f Hf. f_equal. apply IH.
    intros x Hx. assert (x < o) by (eapply C; eauto). lia.
Qed.

(** renaming the objects of a value *)
Fixpoint rename (r : nat -> nat) (v : val) : val :=
  match v with
  | VAtom a => VAtom a | VObj o => VObj (r o) | VMeth o m => VMeth (r o) m
  | VList l => VList (map (rename r) l) | VDict l => VDict (map (fun e => (fst e, rename r (snd e))) l)
  end.
Fixpoint no_methods (v : val) : Prop :=
  match v with
  | VAtom _ | VObj _ => True | VMeth _ _ => False
  | VList l => (fix all l := match l with [] => True | x :: r => no_methods x /\ all r end) l
  | VDict l => (fix all l := match l with [] => True | x :: r => no_methods (snd x) /\ all r end) l
  end.
Lemma nometh_list l : no_methods (VList l) <-> Forall no_methods l.
Proof. cbn. induction l as [|x l IH]; [split; auto|]. split. - intros [H1 H2]. constructor; tauto. - intros H. inversion_clear H. tauto. Qed.
Lemma nometh_dict l : no_methods (VDict l) <-> Forall (fun e => no_methods (snd e)) l.
Proof. cbn. induction l as [|x l IH]; [split; auto|]. split. - intros [H1 H2]. constructor; tauto. - intros H. inversion_clear H. tauto. Qed.
Lemma nometh_mrefs v : no_methods v -> mrefs v = [].
Proof.
  induction v as [a|l IH|l IH|o|o m] using val_ind'; intros H; cbn; auto; [| |destruct H].
  - apply nometh_list in H. induction l as [|x l IHl]; auto. inversion_clear IH; inversion_clear H. cbn. rewrite H0 by auto. cbn. auto.
  - apply nometh_dict in H. induction l as [|x l IHl]; auto. inversion_clear IH; inversion_clear H. cbn. rewrite H0 by auto. cbn. auto.
Qed.
Lemma rename_ext r r' v : (forall o, In o (orefs v ++ mrefs v) -> r o = r' o) -> rename r v = rename r' v.
Proof.
  induction v as [a|l IH|l IH|o|o m] using val_ind'; intros H; cbn; auto.
  - f_equal. apply map_ext_in. intros x Hx. rewrite Forall_forall in IH. apply IH; auto.
    intros o Ho. apply H. apply in_app_iff in Ho. apply in_app_iff. rewrite orefs_list, mrefs_list. destruct Ho; eauto.
  - f_equal. apply map_ext_in. intros x Hx. f_equal. rewrite Forall_forall in IH. apply (IH x Hx).
    intros o Ho. apply H. apply in_app_iff in Ho. apply in_app_iff. rewrite orefs_dict, mrefs_dict. destruct Ho; eauto.
  - rewrite H; cbn; auto.
  - rewrite H; cbn; auto.
Qed.

(** all objects that end up in the table when [v] is saved *)
Section S.
Variable S : nat -> obj.
Inductive Use : val -> nat -> Prop :=
| use_ref v o : In o (orefs v) -> Use v o
| use_obj v p f o : In p (orefs v) -> In f (o_fields (S p)) -> Use (snd f) o -> Use v o
| use_meth v p f o : In p (mrefs v) -> In f (o_fields (S p)) -> Use (snd f) o -> Use v o.

Lemma Use_list l o : Use (VList l) o <-> exists v, In v l /\ Use v o.
Proof.
  split.
  - intros H. inversion H; subst.
    + apply orefs_list in H0. destruct H0 as (v & ? & ?). exists v. split; auto. now apply use_ref.
    + apply orefs_list in H0. destruct H0 as (v & ? & ?). exists v. split; auto. eapply use_obj; eauto.
    + apply mrefs_list in H0. destruct H0 as (v & ? & ?). exists v. split; auto. eapply use_meth; eauto.
  - intros (v & Hv & H). destruct H.
    + apply use_ref. apply orefs_list. eauto.
    + eapply use_obj; eauto. apply orefs_list. eauto.
    + eapply use_meth; eauto. apply mrefs_list. eauto.
Qed.
Lemma Use_dict l o : Use (VDict l) o <-> exists e, In e l /\ Use (snd e) o.
Proof.
  split.
  - intros H. inversion H; subst.
    + apply orefs_dict in H0. destruct H0 as (v & ? & ?). exists v. split; auto. now apply use_ref.
    + apply orefs_dict in H0. destruct H0 as (v & ? & ?). exists v. split; auto. eapply use_obj; eauto.
    + apply mrefs_dict in H0. destruct H0 as (v & ? & ?). exists v. split; auto. eapply use_meth; eauto.
  - intros (v & Hv & H). destruct v as [k v]. cbn in *. destruct H.
    + apply use_ref. apply orefs_dict. exists (k, v). auto.
    + eapply use_obj; eauto. apply orefs_dict. exists (k, v). auto.
    + eapply use_meth; eauto. apply mrefs_dict. exists (k, v). auto.
Qed.

Variables (Q : nat -> Prop) (rank : nat -> nat) (B : nat).
(** Q: the objects concerned; closed under "occurs in a field of", acyclic, names distinct *)
Hypothesis Qfield : forall o f o', Q o -> In f (o_fields (S o)) -> In o' (orefs (snd f) ++ mrefs (snd f)) -> Q o' /\ rank o' < rank o.
Hypothesis Qname : forall o o', Q o -> Q o' -> o_name (S o) = o_name (S o') -> o = o'.
Hypothesis Qkeys : forall o f, Q o -> In f (o_fields (S o)) -> plain_keys (snd f).
Hypothesis Qrank : forall o, Q o -> rank o < B.

Definition within (b : nat) (v : val) := forall o, In o (orefs v ++ mrefs v) -> Q o /\ rank o < b.
Lemma within_list b l : within b (VList l) <-> forall v, In v l -> within b v.
Proof.
  unfold within. split.
  - intros H v Hv o Ho. apply H. apply in_app_iff in Ho. apply in_app_iff. rewrite orefs_list, mrefs_list. destruct Ho; eauto.
  - intros H o Ho. apply in_app_iff in Ho. rewrite orefs_list, mrefs_list in Ho. destruct Ho as [(v & ? & ?)|(v & ? & ?)]; apply (H v); auto; apply in_app_iff; auto.
Qed.
Lemma within_dict b l : within b (VDict l) <-> forall e, In e l -> within b (snd e).
Proof.
  unfold within. split.
  - intros H v Hv o Ho. apply H. apply in_app_iff in Ho. apply in_app_iff. rewrite orefs_dict, mrefs_dict. destruct Ho; eauto.
  - intros H o Ho. apply in_app_iff in Ho. rewrite orefs_dict, mrefs_dict in Ho. destruct Ho as [(v & ? & ?)|(v & ? & ?)]; apply (H v); auto; apply in_app_iff; auto.
Qed.
Lemma within_field b o f : Q o -> rank o < Datatypes.S b -> In f (o_fields (S o)) -> within b (snd f).
Proof using Qfield. clear Qname Qkeys Qrank. intros HQ HR Hf o' Ho'. destruct (Qfield o f o' HQ Hf Ho'). split; auto. lia. Qed.
Lemma within_B v b : within b v -> within B v.
Proof. intros H o Ho. destruct (H o Ho). split; auto. Qed.

(** the JSON written for a value: does not depend on the table *)
Definition jref (o : nat) : json := JDict [(KType, JAtom REF); (KValue, JAtom (o_name (S o)))].
Definition jobj (fs : list (jkey * json)) (o : nat) : json := JDict ((KClass, JAtom (o_cls (S o))) :: (KObjName, JAtom (o_name (S o))) :: fs).
Fixpoint jv (r : nat) : val -> json :=
  fix go v := match v with
  | VAtom a => JAtom a | VList l => JList (map go l) | VDict l => JDict (map (fun e => (fst e, go (snd e))) l)
  | VObj o => jref o
  | VMeth o m => match r with
                 | 0 => JAtom 0
                 | Datatypes.S r' => JDict [(KCallable, JAtom m); (KBound, jobj (map (fun f => (KUser (fst f), jv r' (snd f))) (o_fields (S o))) o)]
                 end
  end.
Lemma jv_list r l : jv r (VList l) = JList (map (jv r) l). Proof. destruct r; reflexivity. Qed.
Lemma jv_dict r l : jv r (VDict l) = JDict (map (fun e => (fst e, jv r (snd e))) l). Proof. destruct r; reflexivity. Qed.
Lemma jv_stable r : forall v, within r v -> forall r', r <= r' -> jv r' v = jv r v.
Proof using Qfield. clear Qname Qkeys Qrank.
  induction r as [|r IH].
  - induction v as [a|l IHl|l IHl|o|o m] using val_ind'; intros W r' _.
    + now destruct r'.
    + rewrite !jv_list. f_equal. apply map_ext_in. intros x Hx. rewrite Forall_forall in IHl. apply IHl; auto; [|lia]. now apply (proj1 (within_list _ _) W).
    + rewrite !jv_dict. f_equal. apply map_ext_in. intros x Hx. f_equal. rewrite Forall_forall in IHl. apply (IHl x Hx); [|lia]. now apply (proj1 (within_dict _ _) W).
    + now destruct r'.
    + exfalso. destruct (W o) as [_ H]; [cbn; auto|lia].
  - induction v as [a|l IHl|l IHl|o|o m] using val_ind'; intros W r' Hr; (destruct r' as [|r']; [lia|]).
    + reflexivity.
    + rewrite !jv_list. f_equal. apply map_ext_in. intros x Hx. rewrite Forall_forall in IHl. apply IHl; auto. now apply (proj1 (within_list _ _) W).
    + rewrite !jv_dict. f_equal. apply map_ext_in. intros x Hx. f_equal. rewrite Forall_forall in IHl. apply (IHl x Hx); auto. now apply (proj1 (within_dict _ _) W).
    + reflexivity.
    + cbn. do 2 f_equal. f_equal. f_equal. f_equal. apply map_ext_in. intros f Hf. f_equal. apply IH; [|lia].
      destruct (W o) as [HQ HR]; [cbn; auto|]. now apply (within_field r o).
Qed.
Definition jd (o : nat) : json := jobj (map (fun f => (KUser (fst f), jv B (snd f))) (o_fields (S o))) o.
Lemma jv_meth o m : Q o -> jv B (VMeth o m) = JDict [(KCallable, JAtom m); (KBound, jd o)].
Proof.
  intros HQ. assert (HB := Qrank o HQ). assert (EB : B = Datatypes.S (pred B)) by lia. unfold jd. rewrite EB at 1. cbn [jv]. do 2 f_equal. f_equal. f_equal. f_equal.
  apply map_ext_in. intros f Hf. f_equal. symmetry. apply jv_stable; [|lia]. apply (within_field (pred B) o); auto. lia.
Qed.
Lemma jv_obj o : jv B (VObj o) = jref o. Proof. now destruct B. Qed.
Lemma jv_atom a : jv B (VAtom a) = JAtom a. Proof. now destruct B. Qed.

(** ** saving *)
Notation serd := (list (nat * json)).
Definition has (ser : serd) n := exists j, get n ser = Some j.
Definition SerOK (ser : serd) := NoDup (map fst ser) /\
  forall n j, get n ser = Some j -> exists o, Q o /\ n = o_name (S o) /\ j = jd o /\
    forall f o', In f (o_fields (S o)) -> Use (snd f) o' -> has ser (o_name (S o')).
Definition ext (ser ser' : serd) := forall n j, get n ser = Some j -> get n ser' = Some j.
Definition grow (U : nat -> Prop) (ser ser' : serd) :=
  SerOK ser' /\ ext ser ser' /\ forall n, has ser' n <-> has ser n \/ exists o, U o /\ n = o_name (S o).
Definition encodes {A B} (f : nat -> serd -> A -> option (B * serd)) (a : A) (b : B) (U : nat -> Prop) :=
  exists F, forall fuel, F <= fuel -> forall ser, SerOK ser -> exists ser', f fuel ser a = Some (b, ser') /\ grow U ser ser'.

Lemma mapS_encodes {A C} (f : nat -> serd -> A -> option (C * serd)) (g : A -> C) (U : A -> nat -> Prop) l :
  (forall a, In a l -> encodes f a (g a) (U a)) ->
  encodes (fun fuel => mapS (f fuel)) l (map g l) (fun o => exists a, In a l /\ U a o).
Proof.
  induction l as [|a l IH]; intros H.
  - exists 0. intros fuel _ ser O. exists ser. split; auto. split; auto. split; [intros ? ?; auto|]. intros n. split; auto.
    intros [|(o & (a & [] & _) & _)]; auto.
  - destruct (H a (or_introl eq_refl)) as (F1 & H1). destruct (IH (fun a' I => H a' (or_intror I))) as (F2 & H2).
    exists (F1 + F2). intros fuel Hf ser O. destruct (H1 fuel ltac:(lia) ser O) as (ser1 & E1 & O1 & X1 & K1).
    destruct (H2 fuel ltac:(lia) ser1 O1) as (ser2 & E2 & O2 & X2 & K2).
    exists ser2. cbn. rewrite E1, E2. split; auto. split; auto. split; [intros ? ? ?; auto|].
    intros n. rewrite K2, K1. split.
    + intros [[|(o & HU & ->)]|(o & (a' & Ha' & HU) & ->)]; auto; right; exists o; split; auto.
      * exists a. split; [now left|assumption]. * exists a'. split; [now right|assumption].
    + intros [|(o & (a' & [<-|Ha'] & HU) & ->)]; auto.
      * left; right. exists o; auto. * right. exists o; split; auto. exists a'; auto.
Qed.

Lemma encodes_ext {A C} (f : nat -> serd -> A -> option (C * serd)) a b (U U' : nat -> Prop) :
  (forall o, U o <-> U' o) -> encodes f a b U -> encodes f a b U'.
Proof.
  intros HU (F & H). exists F. intros fuel Hf ser O. destruct (H fuel Hf ser O) as (ser' & E & O' & X & K).
  exists ser'. split; auto. split; auto. split; auto. intros n. rewrite K. split; (intros [|(o & HUo & ->)]; auto); right; exists o; split; auto; now apply HU.
Qed.

Lemma enc_encodes b : forall v, within b v -> encodes (enc S) v (jv B v) (Use v).
Proof.
  induction b as [b IHb] using lt_wf_ind.
  (* as_dict of an object of smaller rank *)
  assert (AD : forall o, Q o -> rank o < b -> exists F, forall fuel, F <= fuel -> forall ser, SerOK ser -> exists ser',
    mapS (fun ser f => match enc S fuel ser (snd f) with None => None | Some (j, ser') => Some ((KUser (fst f), j), ser') end) ser (o_fields (S o)) =
      Some (map (fun f => (KUser (fst f), jv B (snd f))) (o_fields (S o)), ser') /\
    grow (fun o' => exists f, In f (o_fields (S o)) /\ Use (snd f) o') ser ser').
  { intros o HQ HR.
    apply (mapS_encodes (fun fuel ser f => match enc S fuel ser (snd f) with None => None | Some (j, ser') => Some ((KUser (fst f), j), ser') end)
             (fun f => (KUser (fst f), jv B (snd f))) (fun f => Use (snd f))).
    intros f Hf. destruct (IHb (rank o) HR (snd f)) as (F & HF).
    { intros o' Ho'. apply (Qfield o f); auto. }
    exists F. intros fuel Hfu ser O. destruct (HF fuel Hfu ser O) as (ser' & E & G). exists ser'. rewrite E. auto. }
  induction v as [a|l IHl|l IHl|o|o m] using val_ind'; intros W.
  - exists 1. intros [|fuel] Hf ser O; [lia|]. exists ser. rewrite jv_atom. split; auto. split; auto. split; [intros ? ?; auto|].
    intros n. split; auto. intros [|(o & U & _)]; auto. inversion U; subst; contradiction.
  - rewrite jv_list. rewrite Forall_forall in IHl.
    destruct (mapS_encodes (enc S) (jv B) Use l) as (F & HF).
    { intros x Hx. apply IHl; auto. now apply (proj1 (within_list _ _) W). }
    apply (encodes_ext _ _ _ (fun o => exists a, In a l /\ Use a o)). { intros o. symmetry. apply Use_list. }
    exists (Datatypes.S F). intros [|fuel] Hf ser O; [lia|]. destruct (HF fuel ltac:(lia) ser O) as (ser' & E & G). exists ser'. cbn [enc]. rewrite E. auto.
  - rewrite jv_dict. rewrite Forall_forall in IHl.
    destruct (mapS_encodes (fun fuel ser e => match enc S fuel ser (snd e) with None => None | Some (j, ser') => Some ((fst e, j), ser') end)
       (fun e => (fst e, jv B (snd e))) (fun e => Use (snd e)) l) as (F & HF).
    { intros x Hx. destruct (IHl x Hx) as (F & HF); [now apply (proj1 (within_dict _ _) W)|].
      exists F. intros fuel Hfu ser O. destruct (HF fuel Hfu ser O) as (ser' & E & G). exists ser'. rewrite E. auto. }
    apply (encodes_ext _ _ _ (fun o => exists a, In a l /\ Use (snd a) o)). { intros o. symmetry. apply Use_dict. }
    exists (Datatypes.S F). intros [|fuel] Hf ser O; [lia|]. destruct (HF fuel ltac:(lia) ser O) as (ser' & E & G). exists ser'. cbn [enc]. rewrite E. auto.
  - destruct (W o) as [HQ HR]; [cbn; auto|]. destruct (AD o HQ HR) as (F & HF).
    exists (Datatypes.S F). intros [|fuel] Hf ser O; [lia|]. cbn [enc]. rewrite jv_obj.
    destruct (get (o_name (S o)) ser) as [j|] eqn:EG.
    + exists ser. split; auto. split; auto. split; [intros ? ?; auto|]. intros n. split; auto.
      intros [|(o' & U & ->)]; auto. destruct (proj2 O _ _ EG) as (p & HQp & Hn & _ & Hp). apply Qname in Hn; auto. subst p.
      inversion U; subst.
      * destruct H as [<-|[]]. exists j; auto. * destruct H as [<-|[]]. eapply Hp; eauto. * destruct H.
    + destruct (HF fuel ltac:(lia) ser O) as (ser' & E & O' & X & K). rewrite E. fold (jobj (map (fun f => (KUser (fst f), jv B (snd f))) (o_fields (S o))) o). fold (jd o).
      eexists. split; [reflexivity|].
      assert (NF : get (o_name (S o)) ser' = None).
      { destruct (get (o_name (S o)) ser') as [j|] eqn:E'; auto. exfalso. assert (has ser' (o_name (S o))) by (eexists; eauto).
        apply K in H. destruct H as [(j' & H)|(o' & (f & Hf1 & U) & Hn)]; [congruence|].
        (* o' is used by a field of o: rank smaller, so not o *)
        assert (R : forall v o', Use v o' -> forall k, (forall x, In x (orefs v ++ mrefs v) -> Q x /\ rank x < k) -> Q o' /\ rank o' < k).
        { clear - Qfield. induction 1; intros k Hk.
          - apply Hk. apply in_app_iff. auto.
          - destruct (Hk p) as [Hp1 Hp2]; [apply in_app_iff; auto|]. destruct (IHUse (rank p)) as [? ?]. { intros x Hx. eapply Qfield; eauto. } split; auto. lia.
          - destruct (Hk p) as [Hp1 Hp2]; [apply in_app_iff; auto|]. destruct (IHUse (rank p)) as [? ?]. { intros x Hx. eapply Qfield; eauto. } split; auto. lia. }
        destruct (R _ _ U (rank o)) as [Q' R']. { intros x Hx. eapply Qfield; eauto. }
        apply Qname in Hn; auto. subst o'. lia. }
      split; [|split].
      * split; [apply put_keys_nodup; apply O'|]. intros n j. rewrite get_put. destruct (Nat.eqb_spec (o_name (S o)) n) as [<-|Hn].
        -- intros H. injection H as <-. exists o. split; auto. split; auto. split; auto. intros f o' Hf1 U.
           assert (has ser' (o_name (S o'))) as (j & Hj) by (apply K; right; exists o'; eauto).
           exists (if o_name (S o) =? o_name (S o') then jd o else j). rewrite get_put. destruct (_ =? _); auto.
        -- intros H. destruct (proj2 O' _ _ H) as (p & HQp & -> & -> & Hp). exists p. split; auto. split; auto. split; auto. intros f o' Hf1 U.
           destruct (Hp f o' Hf1 U) as (j & Hj). exists (if o_name (S o) =? o_name (S o') then jd o else j). rewrite get_put. destruct (_ =? _); auto.
      * intros n j H. rewrite get_put. destruct (Nat.eqb_spec (o_name (S o)) n) as [<-|Hn]; auto. congruence.
      * intros n. unfold has at 1. rewrite get_put. destruct (Nat.eqb_spec (o_name (S o)) n) as [<-|Hn].
        -- split; [intros _; right; exists o; split; auto; apply use_ref; cbn; auto|intros _; eauto].
        -- fold (has ser' n). rewrite K. split.
           ++ intros [|(o' & (f & Hf1 & U) & ->)]; auto. right. exists o'. split; auto. eapply use_obj; eauto. cbn; auto.
           ++ intros [|(o' & U & ->)]; auto. right. inversion U; subst.
              ** destruct H as [<-|[]]. congruence. ** destruct H as [<-|[]]. exists o'. split; eauto. ** destruct H.
  - destruct (W o) as [HQ HR]; [cbn; auto|]. destruct (AD o HQ HR) as (F & HF).
    exists (Datatypes.S F). intros [|fuel] Hf ser O; [lia|]. cbn [enc]. rewrite jv_meth by auto.
    destruct (HF fuel ltac:(lia) ser O) as (ser' & E & O' & X & K). rewrite E. fold (jobj (map (fun f => (KUser (fst f), jv B (snd f))) (o_fields (S o))) o). fold (jd o).
    exists ser'. split; auto. split; auto. split; auto. intros n. rewrite K. split.
    + intros [|(o' & (f & Hf1 & U) & ->)]; auto. right. exists o'. split; auto. eapply use_meth; eauto. cbn; auto.
    + intros [|(o' & U & ->)]; auto. right. inversion U; subst.
      * destruct H. * destruct H. * destruct H as [<-|[]]. exists o'. split; eauto.
Qed.


Lemma jget_user {A} k (g : A -> nat) (h : A -> json) l : (forall n, k <> KUser n) -> jget k (map (fun a => (KUser (g a), h a)) l) = None.
Proof. intros Hk. induction l as [|a l IH]; cbn; auto. destruct k; cbn; auto. exfalso. eapply Hk; eauto. Qed.
Lemma jget_dict k l : (forall n, k <> KUser n) -> Forall (fun e : jkey * val => (exists n, fst e = KUser n) /\ plain_keys (snd e)) l ->
  forall h : val -> json, jget k (map (fun e => (fst e, h (snd e))) l) = None.
Proof. intros Hk H h. induction H as [|[k' v] l [[n Hn] _] _ IH]; cbn in *; auto. subst k'. destruct k; cbn; auto. exfalso. eapply Hk; eauto. Qed.
Lemma filter_user {A} (g : A -> nat) (h : A -> json) l :
  filter (fun e => negb (is_at (fst e))) (map (fun a => (KUser (g a), h a)) l) = map (fun a => (KUser (g a), h a)) l.
Proof. induction l as [|a l IH]; cbn; auto. now rewrite IH. Qed.

(** one step of [dec] on each shape the encoder produces *)
Lemma dec_jref ser fuel t o : dec ser (Datatypes.S fuel) t (jref o) =
  match get (o_name (S o)) (recon t) with
  | Some v => DOk v t
  | None => match get (o_name (S o)) ser with
            | None => DErr EKey
            | Some sub => match dec ser fuel t sub with DNoFuel => DNoFuel | DErr e => DErr e | DOk v t' => DOk v (put_recon (o_name (S o)) v t') end
            end
  end.
Proof. reflexivity. Qed.
Lemma dec_jd ser fuel t o : dec ser (Datatypes.S fuel) t (jd o) =
  match mapD (fun t e => match dec ser fuel t (snd e) with DNoFuel => DNoFuel | DErr e => DErr e
                         | DOk v t' => match fst e with KUser n => DOk (n, v) t' | _ => DErr EType end end)
        t (map (fun f => (KUser (fst f), jv B (snd f))) (o_fields (S o))) with
  | DNoFuel => DNoFuel | DErr e => DErr e
  | DOk fs t' => DOk (VObj (length (made t'))) (mkDst (put (o_name (S o)) (VObj (length (made t'))) (recon t')) (made t' ++ [mkObj (o_cls (S o)) (length (made t')) fs]))
  end.
Proof.
  unfold jd, jobj. cbn [dec jget jkey_eqb filter is_at fst negb].
  rewrite (jget_user KType fst (fun f => jv B (snd f))) by congruence.
  rewrite (filter_user fst (fun f => jv B (snd f))). reflexivity.
Qed.
Lemma dec_dict ser fuel t l : plain_keys (VDict l) -> dec ser (Datatypes.S fuel) t (JDict (map (fun e => (fst e, jv B (snd e))) l)) =
  match mapD (fun t e => match dec ser fuel t (snd e) with DNoFuel => DNoFuel | DErr e => DErr e | DOk v t' => DOk (fst e, v) t' end) t (map (fun e => (fst e, jv B (snd e))) l) with
  | DNoFuel => DNoFuel | DErr e => DErr e | DOk vs t' => DOk (VDict vs) t'
  end.
Proof.
  intros P. apply plain_dict in P. cbn [dec].
  rewrite !(jget_dict _ l) by (auto; congruence). reflexivity.
Qed.

Lemma Use_rank v o : Use v o -> forall k, (forall x, In x (orefs v ++ mrefs v) -> Q x /\ rank x < k) -> Q o /\ rank o < k.
Proof using Qfield.
  clear Qname Qkeys Qrank. induction 1; intros k Hk.
  - apply Hk. apply in_app_iff. auto.
  - destruct (Hk p) as [Hp1 Hp2]; [apply in_app_iff; auto|]. destruct (IHUse (rank p)) as [? ?]. { intros x Hx. eapply Qfield; eauto. } split; auto. lia.
  - destruct (Hk p) as [Hp1 Hp2]; [apply in_app_iff; auto|]. destruct (IHUse (rank p)) as [? ?]. { intros x Hx. eapply Qfield; eauto. } split; auto. lia.
Qed.

Variables (ser : serd) (U : nat -> Prop).
Hypothesis Tab : forall o, U o -> Q o /\ get (o_name (S o)) ser = Some (jd o).
Hypothesis Uclosed : forall o f o', U o -> In f (o_fields (S o)) -> Use (snd f) o' -> U o'.

(** ** loading preserves the contents (the unfolding), also through bound methods *)
Definition same_content (t : dst) (v v' : val) := refs_lt (length (made t)) v' /\ forall r, unf (heap_of (made t)) r v' = unf S r v.
Definition DecOK (t : dst) := closedM (made t) /\
  forall n v', get n (recon t) = Some v' -> (exists i, v' = VObj i) /\ forall o, Q o -> o_name (S o) = n -> same_content t (VObj o) v'.
Definition dstep (t t' : dst) := exists l, made t' = made t ++ l.
Lemma dstep_refl t : dstep t t. Proof. exists []. now rewrite app_nil_r. Qed.
Lemma dstep_trans t1 t2 t3 : dstep t1 t2 -> dstep t2 t3 -> dstep t1 t3.
Proof. intros (l & E) (l' & E'). exists (l ++ l'). now rewrite E', E, app_assoc. Qed.
Lemma content_mono t t' v v' : closedM (made t) -> dstep t t' -> same_content t v v' -> same_content t' v v'.
Proof.
  intros C (l & E) (L & H). split.
  - intros o Ho. rewrite E, app_length. specialize (L o Ho). lia.
  - intros r. rewrite E, unf_app; auto.
Qed.

Definition loads (j : json) (v : val) := exists F, forall fuel, F <= fuel -> forall t, DecOK t -> exists v' t',
  dec ser fuel t j = DOk v' t' /\ DecOK t' /\ dstep t t' /\ same_content t' v v'.

Lemma dec_content b : forall v, within b v -> plain_keys v -> (forall o, Use v o -> U o) -> loads (jv B v) v.
Proof.
  induction b as [b IHb] using lt_wf_ind.
  (* the object dictionary of an object of smaller rank *)
  assert (AD : forall o, Q o -> rank o < b -> (forall f o', In f (o_fields (S o)) -> Use (snd f) o' -> U o') ->
    exists F, forall fuel, F <= fuel -> forall t, DecOK t -> exists i t',
      dec ser fuel t (jd o) = DOk (VObj i) t' /\ DecOK t' /\ dstep t t' /\ same_content t' (VObj o) (VObj i)).
  { intros o HQ HR HU.
    destruct (mapD_decodes DecOK dstep dstep_refl dstep_trans
       (fun fuel t e => match dec ser fuel t (snd e) with DNoFuel => DNoFuel | DErr e => DErr e
                         | DOk v t' => match fst e with KUser n => DOk (n, v) t' | _ => DErr EType end end)
       (fun f => (KUser (fst f), jv B (snd f))) (fun t f c => fst c = fst f /\ same_content t (snd f) (snd c)) (o_fields (S o))) as (F & HF).
    { intros t t' a c O X [R1 R2]. split; auto. eapply content_mono; eauto. apply O. }
    { intros f Hf. destruct (IHb (rank o) HR (snd f)) as (F & HF).
      - intros o' Ho'. apply (Qfield o f); auto. - eapply Qkeys; eauto. - intros o' Ho'. eapply HU; eauto.
      - exists F. intros fuel Hfu t O. destruct (HF fuel Hfu t O) as (v' & t' & E & O' & X & C). exists (fst f, v'), t'. cbn [fst snd]. rewrite E. auto. }
    exists (Datatypes.S F). intros [|fuel] Hf t O; [lia|]. rewrite dec_jd. destruct (HF fuel ltac:(lia) t O) as (fs & t' & E & O' & X & R).
    rewrite E. eexists; eexists. split; [reflexivity|].
    set (nb := mkObj (o_cls (S o)) (length (made t')) fs).
    assert (C' : closedM (made t' ++ [nb])).
    { intros i f Hi Hfi. rewrite app_length in Hi. cbn in Hi. unfold heap_of in Hfi. destruct (Nat.lt_ge_cases i (length (made t'))) as [L|L].
      - rewrite app_nth1 in Hfi by auto. apply (proj1 O' i f L Hfi).
      - rewrite app_nth2 in Hfi by auto. replace (i - length (made t')) with 0 in Hfi by lia. cbn in Hfi.
        replace i with (length (made t')) by lia.
        clear - R Hfi. induction R as [|a c l cs [_ [H _]] _ IH]; [destruct Hfi|]. destruct Hfi as [<-|]; auto. }
    assert (X' : dstep t' (mkDst (put (o_name (S o)) (VObj (length (made t'))) (recon t')) (made t' ++ [nb]))) by (exists [nb]; reflexivity).
    assert (SC : same_content (mkDst (put (o_name (S o)) (VObj (length (made t'))) (recon t')) (made t' ++ [nb])) (VObj o) (VObj (length (made t')))).
    { split.
      - intros x [<-|[]]. cbn. rewrite app_length. cbn. lia.
      - intros [|r]; auto. cbn [unf made]. assert (HN : heap_of (made t' ++ [nb]) (length (made t')) = nb) by (unfold heap_of; rewrite app_nth2, Nat.sub_diag by lia; reflexivity).
        rewrite HN. replace (o_fields nb) with fs by reflexivity. replace (o_cls nb) with (o_cls (S o)) by reflexivity. f_equal.
        assert (R' : Forall2 (fun f c : nat * val => fst c = fst f /\ refs_lt (length (made t')) (snd c) /\ forall r, unf (heap_of (made t')) r (snd c) = unf S r (snd f)) (o_fields (S o)) fs) by exact R.
        generalize [nb]. intros lnb. clear - R' O'. induction R' as [|f c l cs (H1 & H2 & H3) _ IH]; cbn; auto. rewrite IH, H1. f_equal. f_equal. rewrite unf_app; auto. apply O'. }
    split; [|split; [eapply dstep_trans; eauto|exact SC]].
    split; [exact C'|]. cbn [recon]. intros n v'. rewrite get_put. destruct (Nat.eqb_spec (o_name (S o)) n) as [<-|Hn].
    - intros H. injection H as <-. split; [eauto|]. intros o' HQ' Hn. apply Qname in Hn; auto. now subst o'.
    - intros H. destruct (proj2 O' n v' H) as [H1 H2]. split; auto. intros o' HQ' Ho'. eapply content_mono; [apply O'|exact X'|auto]. }
  induction v as [a|l IHl|l IHl|o|o m] using val_ind'; intros W P HU.
  - exists 1. intros [|fuel] Hf t O; [lia|]. rewrite jv_atom. exists (VAtom a), t. split; auto. split; auto. split; [apply dstep_refl|].
    split; [intros x []|]. now intros [|r].
  - rewrite jv_list. rewrite Forall_forall in IHl. apply plain_list in P. rewrite Forall_forall in P.
    destruct (mapD_decodes DecOK dstep dstep_refl dstep_trans (dec ser) (jv B) same_content l) as (F & HF).
    { intros t t' a c O X. apply content_mono; auto. apply O. }
    { intros x Hx. apply IHl; auto. - now apply (proj1 (within_list _ _) W). - intros o Ho. apply HU. apply Use_list. eauto. }
    exists (Datatypes.S F). intros [|fuel] Hf t O; [lia|]. destruct (HF fuel ltac:(lia) t O) as (vs & t' & E & O' & X & R).
    exists (VList vs), t'. cbn [dec]. rewrite E. split; auto. split; auto. split; auto. split.
    + apply refs_lt_list. intros v Hv. clear - R Hv. induction R as [|a c l cs [H _] _ IH]; [destruct Hv|]. destruct Hv as [<-|]; auto.
    + intros [|r]; auto. cbn [unf]. f_equal. clear - R. induction R as [|a c l cs [_ H] _ IH]; cbn; auto. rewrite IH. f_equal. apply H.
  - rewrite jv_dict. rewrite Forall_forall in IHl. assert (P' := P). apply plain_dict in P'. rewrite Forall_forall in P'.
    destruct (mapD_decodes DecOK dstep dstep_refl dstep_trans
       (fun fuel t e => match dec ser fuel t (snd e) with DNoFuel => DNoFuel | DErr e => DErr e | DOk v t' => DOk (fst e, v) t' end)
       (fun e => (fst e, jv B (snd e))) (fun t e c => fst c = fst e /\ same_content t (snd e) (snd c)) l) as (F & HF).
    { intros t t' a c O X [R1 R2]. split; auto. eapply content_mono; eauto. apply O. }
    { intros x Hx. destruct (IHl x Hx) as (F & HF).
      - now apply (proj1 (within_dict _ _) W). - now apply P'. - intros o Ho. apply HU. apply Use_dict. eauto.
      - exists F. intros fuel Hfu t O. destruct (HF fuel Hfu t O) as (v' & t' & E & O' & X & C). exists (fst x, v'), t'. cbn [fst snd]. rewrite E. auto. }
    exists (Datatypes.S F). intros [|fuel] Hf t O; [lia|]. rewrite dec_dict by auto. destruct (HF fuel ltac:(lia) t O) as (vs & t' & E & O' & X & R).
    exists (VDict vs), t'. rewrite E. split; auto. split; auto. split; auto. split.
    + apply refs_lt_dict. intros v Hv. clear - R Hv. induction R as [|a c l cs [_ [H _]] _ IH]; [destruct Hv|]. destruct Hv as [<-|]; auto.
    + intros [|r]; auto. cbn [unf]. f_equal. clear - R. induction R as [|a c l cs [H0 [_ H]] _ IH]; cbn; auto. rewrite IH, H0. f_equal. f_equal. apply H.
  - destruct (W o) as [HQ HR]; [cbn; auto|]. rewrite jv_obj.
    assert (Uo : U o) by (apply HU, use_ref; cbn; auto).
    destruct (AD o HQ HR) as (F & HF). { intros f o' Hf Ho'. eapply Uclosed; eauto. }
    exists (Datatypes.S F). intros [|fuel] Hf t O; [lia|]. rewrite dec_jref.
    destruct (get (o_name (S o)) (recon t)) as [v'|] eqn:EG.
    + destruct (proj2 O _ _ EG) as [_ H]. exists v', t. split; auto. split; auto. split; [apply dstep_refl|]. apply H; auto.
    + destruct (Tab o Uo) as [_ ->]. destruct (HF fuel ltac:(lia) t O) as (i & t' & E & O' & X & C). rewrite E.
      eexists; eexists. split; [reflexivity|]. split; [|split; [exact X|exact C]].
      split; [apply O'|]. cbn [recon put_recon]. intros n v'. rewrite get_put. destruct (Nat.eqb_spec (o_name (S o)) n) as [<-|Hn].
      * intros H. injection H as <-. split; [eauto|]. intros o' HQ' Hn. apply Qname in Hn; auto. now subst o'.
      * apply (proj2 O').
  - destruct (W o) as [HQ HR]; [cbn; auto|]. rewrite jv_meth by auto.
    destruct (AD o HQ HR) as (F & HF). { intros f o' Hf Ho'. apply HU. eapply use_meth; eauto. cbn; auto. }
    exists (Datatypes.S F). intros [|fuel] Hf t O; [lia|]. destruct (HF fuel ltac:(lia) t O) as (i & t' & E & O' & X & C).
    cbn [dec jget jkey_eqb]. rewrite E. exists (VMeth i m), t'. split; auto. split; auto. split; auto. destruct C as [C1 C2]. split.
    + intros x Hx. apply C1. exact Hx.
    + intros [|r]; auto. specialize (C2 (Datatypes.S r)). cbn [unf] in *. injection C2 as -> ->. reflexivity.
Qed.

(** ** without bound methods, loading rebuilds the object graph up to renaming *)
Definition known (t : dst) (o : nat) := exists i, get (o_name (S o)) (recon t) = Some (VObj i).
Definition rl (t : dst) (o : nat) : nat := match get (o_name (S o)) (recon t) with Some (VObj i) => i | _ => 0 end.
Definition renamed (t : dst) (v v' : val) := (forall o, In o (orefs v ++ mrefs v) -> known t o) /\ v' = rename (rl t) v.
Definition IsoOK (t : dst) :=
  (forall n v', get n (recon t) = Some v' -> exists o i, U o /\ n = o_name (S o) /\ v' = VObj i /\ i < length (made t) /\
     o_cls (heap_of (made t) i) = o_cls (S o) /\ Forall2 (fun f c => fst c = fst f /\ renamed t (snd f) (snd c)) (o_fields (S o)) (o_fields (heap_of (made t) i))) /\
  (forall n m i, get n (recon t) = Some (VObj i) -> get m (recon t) = Some (VObj i) -> n = m) /\
  (forall i, i < length (made t) -> exists n, get n (recon t) = Some (VObj i)).
Definition istep (t t' : dst) := (exists l, made t' = made t ++ l) /\ forall n v, get n (recon t) = Some v -> get n (recon t') = Some v.
Lemma istep_refl t : istep t t. Proof. split; auto. exists []. now rewrite app_nil_r. Qed.
Lemma istep_trans t1 t2 t3 : istep t1 t2 -> istep t2 t3 -> istep t1 t3.
Proof. intros ((l & E) & H) ((l' & E') & H'). split; auto. exists (l ++ l'). now rewrite E', E, app_assoc. Qed.
Lemma rl_mono t t' o : istep t t' -> known t o -> rl t' o = rl t o.
Proof. intros [_ H] (i & E). unfold rl. now rewrite (H _ _ E), E. Qed.
Lemma renamed_mono t t' v v' : istep t t' -> renamed t v v' -> renamed t' v v'.
Proof.
  intros X [K ->]. split.
  - intros o Ho. destruct (K o Ho) as (i & E). exists i. now apply X.
  - apply rename_ext. intros o Ho. symmetry. apply rl_mono; auto.
Qed.
(** the names that appear are those of used objects *)
Definition newn (t t' : dst) (V : nat -> Prop) := forall n, (exists v, get n (recon t') = Some v) -> (exists v, get n (recon t) = Some v) \/ exists o, V o /\ n = o_name (S o).

Definition loadsI (j : json) (v : val) := exists F, forall fuel, F <= fuel -> forall t, IsoOK t -> exists v' t',
  dec ser fuel t j = DOk v' t' /\ (IsoOK t' /\ newn t t' (Use v)) /\ istep t t' /\ renamed t' v v'.

Hypothesis Unometh : forall o f, U o -> In f (o_fields (S o)) -> no_methods (snd f).

Lemma newn_mono t t' (V V' : nat -> Prop) : (forall o, V o -> V' o) -> newn t t' V -> newn t t' V'.
Proof. intros H N n Hn. destruct (N n Hn) as [|(o & HV & ->)]; eauto. Qed.
Lemma newn_trans t1 t2 t3 (V : nat -> Prop) : newn t1 t2 V -> newn t2 t3 V -> newn t1 t3 V.
Proof. intros H N n Hn. destruct (N n Hn) as [H1|(o & HV & ->)]; eauto. Qed.

Lemma dec_iso b : forall v, within b v -> plain_keys v -> no_methods v -> (forall o, Use v o -> U o) -> loadsI (jv B v) v.
Proof.
  induction b as [b IHb] using lt_wf_ind.
  induction v as [a|l IHl|l IHl|o|o m] using val_ind'; intros W P NM HU.
  - exists 1. intros [|fuel] Hf t O; [lia|]. rewrite jv_atom. exists (VAtom a), t. split; auto. split; [split; auto; intros n Hn; auto|]. split; [apply istep_refl|].
    split; [intros x []|reflexivity].
  - rewrite jv_list. rewrite Forall_forall in IHl. apply plain_list in P. rewrite Forall_forall in P. apply nometh_list in NM. rewrite Forall_forall in NM.
    destruct (mapD_grow IsoOK istep istep_refl istep_trans newn (fun t V n H => or_introl H) newn_trans (dec ser) (jv B) renamed (Use (VList l)) l) as (F & HF).
    { intros t t' x c O X. now apply renamed_mono. }
    { intros x Hx. destruct (IHl x Hx) as (F & HF); auto. - now apply (proj1 (within_list _ _) W). - intros o Ho. apply HU. apply Use_list. eauto.
      - exists F. intros fuel Hfu t O. destruct (HF fuel Hfu t O) as (v' & t' & E & (O' & N) & X & R). exists v', t'. split; auto. split; [split; auto|auto].
        eapply newn_mono; [|exact N]. intros o Ho. apply Use_list. eauto. }
    exists (Datatypes.S F). intros [|fuel] Hf t O; [lia|]. destruct (HF fuel ltac:(lia) t O) as (vs & t' & E & O' & N & X & R).
    exists (VList vs), t'. cbn [dec]. rewrite E. split; auto. split; auto. split; auto. split.
    + intros x Hx. apply in_app_iff in Hx. rewrite orefs_list, mrefs_list in Hx.
      assert (exists v, In v l /\ In x (orefs v ++ mrefs v)) as (v & Hv & Hxv) by (destruct Hx as [(v & ? & ?)|(v & ? & ?)]; exists v; split; auto; apply in_app_iff; auto).
      clear - R Hv Hxv. induction R as [|a c l cs [H _] _ IH]; [destruct Hv|]. destruct Hv as [<-|]; auto.
    + cbn [rename]. f_equal. clear - R. induction R as [|a c l cs [_ H] _ IH]; cbn; auto. now rewrite IH, H.
  - rewrite jv_dict. rewrite Forall_forall in IHl. assert (P' := P). apply plain_dict in P'. rewrite Forall_forall in P'. apply nometh_dict in NM. rewrite Forall_forall in NM.
    destruct (mapD_grow IsoOK istep istep_refl istep_trans newn (fun t V n H => or_introl H) newn_trans
       (fun fuel t e => match dec ser fuel t (snd e) with DNoFuel => DNoFuel | DErr e => DErr e | DOk v t' => DOk (fst e, v) t' end)
       (fun e => (fst e, jv B (snd e))) (fun t e c => fst c = fst e /\ renamed t (snd e) (snd c)) (Use (VDict l)) l) as (F & HF).
    { intros t t' x c O X [R1 R2]. split; auto. eapply renamed_mono; eauto. }
    { intros x Hx. destruct (IHl x Hx) as (F & HF). - now apply (proj1 (within_dict _ _) W). - now apply P'. - now apply NM. - intros o Ho. apply HU. apply Use_dict. eauto.
      - exists F. intros fuel Hfu t O. destruct (HF fuel Hfu t O) as (v' & t' & E & (O' & N) & X & R). exists (fst x, v'), t'. cbn [fst snd]. rewrite E. split; auto. split; [split; auto|auto].
        eapply newn_mono; [|exact N]. intros o Ho. apply Use_dict. eauto. }
    exists (Datatypes.S F). intros [|fuel] Hf t O; [lia|]. rewrite dec_dict by auto. destruct (HF fuel ltac:(lia) t O) as (vs & t' & E & O' & N & X & R).
    exists (VDict vs), t'. rewrite E. split; auto. split; auto. split; auto. split.
    + intros x Hx. apply in_app_iff in Hx. rewrite orefs_dict, mrefs_dict in Hx.
      assert (exists v, In v l /\ In x (orefs (snd v) ++ mrefs (snd v))) as (v & Hv & Hxv) by (destruct Hx as [(v & ? & ?)|(v & ? & ?)]; exists v; split; auto; apply in_app_iff; auto).
      clear - R Hv Hxv. induction R as [|a c l cs [_ [H _]] _ IH]; [destruct Hv|]. destruct Hv as [<-|]; auto.
    + cbn [rename]. f_equal. clear - R. induction R as [|a [k c] l cs [H0 [_ H]] _ IH]; cbn in *; auto. now rewrite IH, H0, H.
  - destruct (W o) as [HQ HR]; [cbn; auto|]. rewrite jv_obj.
    assert (Uo : U o) by (apply HU, use_ref; cbn; auto).
    destruct (mapD_grow IsoOK istep istep_refl istep_trans newn (fun t V n H => or_introl H) newn_trans
       (fun fuel t e => match dec ser fuel t (snd e) with DNoFuel => DNoFuel | DErr e => DErr e
                         | DOk v t' => match fst e with KUser n => DOk (n, v) t' | _ => DErr EType end end)
       (fun f => (KUser (fst f), jv B (snd f))) (fun t f c => fst c = fst f /\ renamed t (snd f) (snd c)) (fun o' => exists f, In f (o_fields (S o)) /\ Use (snd f) o') (o_fields (S o))) as (F & HF).
    { intros t t' x c O X [R1 R2]. split; auto. eapply renamed_mono; eauto. }
    { intros f Hf. destruct (IHb (rank o) HR (snd f)) as (F & HF).
      - intros o' Ho'. apply (Qfield o f); auto. - eapply Qkeys; eauto. - eapply Unometh; eauto. - intros o' Ho'. eapply Uclosed; eauto.
      - exists F. intros fuel Hfu t O. destruct (HF fuel Hfu t O) as (v' & t' & E & (O' & N) & X & R). exists (fst f, v'), t'. cbn [fst snd]. rewrite E. split; auto. split; [split; auto|auto].
        eapply newn_mono; [|exact N]. intros o' Ho'. eauto. }
    exists (Datatypes.S (Datatypes.S F)). intros [|fuel] Hf t O; [lia|]. rewrite dec_jref.
    destruct (get (o_name (S o)) (recon t)) as [v'|] eqn:EG.
    + destruct (proj1 O _ _ EG) as (o' & i & _ & Hn & -> & _). exists (VObj i), t. split; auto. split; [split; auto; intros n Hn'; auto|]. split; [apply istep_refl|].
      split; [intros x [<-|[]]; exists i; auto|]. cbn. unfold rl. now rewrite EG.
    + destruct (Tab o Uo) as [_ ->]. destruct fuel as [|fuel]; [lia|]. rewrite dec_jd.
      destruct (HF fuel ltac:(lia) t O) as (fs & t' & E & O' & N & X & R). rewrite E.
      set (i := length (made t')). unfold put_recon. cbn [recon made].
      set (t2 := mkDst _ _).
      assert (NF : get (o_name (S o)) (recon t') = None).
      { destruct (get (o_name (S o)) (recon t')) as [v'|] eqn:E'; auto. exfalso. destruct (N _ (ex_intro _ _ E')) as [(v2 & H)|(o' & (f & Hf1 & HUse) & Hn)]; [congruence|].
        destruct (Use_rank _ _ HUse (rank o)) as [Q' R']. { intros x Hx. eapply Qfield; eauto. } apply Qname in Hn; auto. subst o'. lia. }
      assert (G : forall n, get n (recon t2) = if o_name (S o) =? n then Some (VObj i) else get n (recon t')).
      { intros n. unfold t2. cbn [recon]. rewrite !get_put. destruct (_ =? n); auto. }
      assert (X' : istep t' t2). { split; [eexists; reflexivity|]. intros n v Hn. rewrite G. destruct (Nat.eqb_spec (o_name (S o)) n) as [<-|]; [congruence|auto]. }
      assert (HN : heap_of (made t2) i = mkObj (o_cls (S o)) i fs).
      { unfold t2, heap_of. cbn [made]. rewrite app_nth2 by (unfold i; lia). unfold i. rewrite Nat.sub_diag. reflexivity. }
      assert (LN : length (made t2) = Datatypes.S i) by (unfold t2; cbn [made]; rewrite app_length; cbn; unfold i; lia).
      assert (OLD : forall k, k < i -> heap_of (made t2) k = heap_of (made t') k). { intros k Hk. unfold t2, heap_of. cbn [made]. now rewrite app_nth1. }
      exists (VObj i), t2. split; [reflexivity|]. split; [split|split].
      * split; [|split].
        -- intros n v'. rewrite G. destruct (Nat.eqb_spec (o_name (S o)) n) as [<-|Hn].
           ++ intros H. injection H as <-. exists o, i. split; auto. split; auto. split; auto. split; [lia|]. rewrite HN. split; auto. cbn [o_fields].
              eapply Forall2_impl'; [|exact R]. cbn. intros f c [H1 H2]. split; auto. eapply renamed_mono; eauto.
           ++ intros H. destruct (proj1 O' n v' H) as (o' & k & HU' & -> & -> & Hk & Hc & Hfs). exists o', k. split; auto. split; auto. split; auto. split; [fold i in Hk; lia|].
              rewrite OLD by auto. split; auto. eapply Forall2_impl'; [|exact Hfs]. cbn. intros f c [H1 H2]. split; auto. eapply renamed_mono; eauto.
        -- assert (BD : forall n k, get n (recon t') = Some (VObj k) -> k < i). { intros n k H. destruct (proj1 O' n _ H) as (o' & k' & _ & _ & Ek & Hk & _). injection Ek as ->. exact Hk. }
           intros n m k. rewrite !G. destruct (Nat.eqb_spec (o_name (S o)) n) as [<-|Hn], (Nat.eqb_spec (o_name (S o)) m) as [<-|Hm]; auto.
           ++ intros H1 H2. injection H1 as <-. apply BD in H2. lia.
           ++ intros H1 H2. injection H2 as <-. apply BD in H1. lia.
           ++ apply (proj1 (proj2 O')).
        -- intros k Hk. rewrite LN in Hk. destruct (Nat.eq_dec k i) as [->|].
           ++ exists (o_name (S o)). rewrite G, Nat.eqb_refl. auto.
           ++ destruct (proj2 (proj2 O') k) as (nn & Hnn); [fold i; lia|]. exists nn. now apply X'.
      * intros n (v & Hn). rewrite G in Hn. destruct (Nat.eqb_spec (o_name (S o)) n) as [<-|].
        -- right. exists o. split; auto. apply use_ref; cbn; auto.
        -- destruct (N n (ex_intro _ _ Hn)) as [|(o' & (f & Hf1 & Hf2) & ->)]; auto. right. exists o'. split; auto. eapply use_obj; eauto. cbn; auto.
      * eapply istep_trans; eauto.
      * split; [intros x [<-|[]]; exists i; rewrite G, Nat.eqb_refl; auto|]. cbn. unfold rl. now rewrite G, Nat.eqb_refl.
  - destruct NM.
Qed.
End S.
