(** C25, C26, C51-C53: saving an object graph to JSON and loading it back. *)
From Verif Require Import ListAux DofsModel JsonModel JsonProofs.

(** ** Specification *)
(** object [o] is mentioned in value [v] (as itself or as the object of a bound method) *)
Inductive occurs (o : nat) : val -> Prop :=
| occ_obj : occurs o (VObj o)
| occ_meth m : occurs o (VMeth o m)
| occ_list v l : In v l -> occurs o v -> occurs o (VList l)
| occ_dict k v l : In (k, v) l -> occurs o v -> occurs o (VDict l).
(** the objects reachable from [v] in the store [S] *)
Inductive Reach (S : nat -> obj) (v : val) : nat -> Prop :=
| reach_here o : occurs o v -> Reach S v o
| reach_field p a w o : Reach S v p -> In (a, w) (o_fields (S p)) -> occurs o w -> Reach S v o.
(** a value mentions bound methods / uses one of the reserved dictionary keys *)
Inductive has_method : val -> Prop :=
| hm_meth o m : has_method (VMeth o m)
| hm_list v l : In v l -> has_method v -> has_method (VList l)
| hm_dict k v l : In (k, v) l -> has_method v -> has_method (VDict l).
Inductive has_reserved : val -> Prop :=
| hr_key k v l : In (k, v) l -> (forall n, k <> KUser n) -> has_reserved (VDict l)
| hr_list v l : In v l -> has_reserved v -> has_reserved (VList l)
| hr_dict k v l : In (k, v) l -> has_reserved v -> has_reserved (VDict l).
(** what the caller must provide: no cycles (an object is built from objects that exist already), distinct
    names, no dictionary with a reserved key *)
Record saveable (S : nat -> obj) (v : val) : Prop := mkSaveable {
  sv_acyclic : exists rank, forall o a w o', Reach S v o -> In (a, w) (o_fields (S o)) -> occurs o' w -> rank o' < rank o;
  sv_names : forall o o', Reach S v o -> Reach S v o' -> o_name (S o) = o_name (S o') -> o = o';
  sv_keys : ~ has_reserved v /\ forall o a w, Reach S v o -> In (a, w) (o_fields (S o)) -> ~ has_reserved w }.
Definition method_free (S : nat -> obj) (v : val) :=
  ~ has_method v /\ forall o a w, Reach S v o -> In (a, w) (o_fields (S o)) -> ~ has_method w.

(** ** the specification in terms of the proofs' functions *)
Lemma occurs_refs o v : occurs o v <-> In o (orefs v ++ mrefs v).
Proof.
  split.
  - induction 1.
    + cbn. auto. + cbn. auto.
    + apply in_app_iff in IHoccurs. apply in_app_iff. rewrite orefs_list, mrefs_list. destruct IHoccurs; eauto.
    + apply in_app_iff in IHoccurs. apply in_app_iff. rewrite orefs_dict, mrefs_dict. destruct IHoccurs; [left|right]; exists (k, v); auto.
  - induction v as [a|l IH|l IH|p|p m] using val_ind'; intros H.
    + destruct H.
    + apply in_app_iff in H. rewrite orefs_list, mrefs_list in H. rewrite Forall_forall in IH.
      destruct H as [(v & Hv & H)|(v & Hv & H)]; apply (occ_list o v); auto; apply IH; auto; apply in_app_iff; auto.
    + apply in_app_iff in H. rewrite orefs_dict, mrefs_dict in H. rewrite Forall_forall in IH.
      destruct H as [([k v] & Hv & H)|([k v] & Hv & H)]; apply (occ_dict o k v); auto; apply (IH (k, v) Hv); apply in_app_iff; auto.
    + destruct H as [<-|[]]. constructor.
    + destruct H as [<-|[]]. constructor.
Qed.
Lemma no_reserved v : ~ has_reserved v -> plain_keys v.
Proof.
  induction v as [a|l IH|l IH|p|p m] using val_ind'; intros H; try exact I.
  - apply plain_list. rewrite Forall_forall in *. intros x Hx. apply IH; auto. intros C. apply H. eapply hr_list; eauto.
  - apply plain_dict. rewrite Forall_forall in *. intros [k x] Hx. split.
    + destruct k; try (now exists n); exfalso; apply H; eapply hr_key; eauto; congruence.
    + apply (IH (k, x) Hx). intros C. apply H. eapply hr_dict; eauto.
Qed.
Lemma no_method v : ~ has_method v -> no_methods v.
Proof.
  induction v as [a|l IH|l IH|p|p m] using val_ind'; intros H; try exact I.
  - apply nometh_list. rewrite Forall_forall in *. intros x Hx. apply IH; auto. intros C. apply H. eapply hm_list; eauto.
  - apply nometh_dict. rewrite Forall_forall in *. intros [k x] Hx. apply (IH (k, x) Hx). intros C. apply H. eapply hm_dict; eauto.
  - exfalso. apply H. constructor.
Qed.
Lemma Use_Reach S v o : Use S v o -> forall w, (forall x, occurs x v -> Reach S w x) -> Reach S w o.
Proof.
  induction 1; intros w Hw.
  - apply Hw. apply occurs_refs, in_app_iff. auto.
  - apply IHUse. intros x Hx. destruct f as [a u]. eapply reach_field; eauto. apply Hw. apply occurs_refs, in_app_iff. auto.
  - apply IHUse. intros x Hx. destruct f as [a u]. eapply reach_field; eauto. apply Hw. apply occurs_refs, in_app_iff. auto.
Qed.
Lemma Use_step S v p f o : Use S v p -> In f (o_fields (S p)) -> Use S (snd f) o -> Use S v o.
Proof.
  induction 1; intros Hf HU.
  - eapply use_obj; eauto. - eapply use_obj; eauto. - eapply use_meth; eauto.
Qed.
Lemma Reach_Use S v o : method_free S v -> Reach S v o -> Use S v o.
Proof.
  intros [M1 M2]. assert (NM : forall w x, ~ has_method w -> occurs x w -> In x (orefs w)).
  { intros w x Hw Hx. apply occurs_refs in Hx. rewrite (nometh_mrefs w), app_nil_r in Hx; auto. now apply no_method. }
  induction 1.
  - apply use_ref. auto.
  - apply (Use_step S v p (a, w)); auto. cbn. apply use_ref. apply NM; eauto.
Qed.

Section Setup.
Variables (S : nat -> obj) (v : val).
Hypothesis SV : saveable S v.
Fixpoint maxl (l : list nat) := match l with [] => 0 | x :: r => Nat.max x (maxl r) end.
Lemma maxl_le l x : In x l -> x <= maxl l.
Proof. induction l as [|y l IH]; cbn; [tauto|]. intros [<-|H]; [lia|]. specialize (IH H). lia. Qed.

Lemma setup : exists rank B,
  (forall o f o', Reach S v o -> In f (o_fields (S o)) -> In o' (orefs (snd f) ++ mrefs (snd f)) -> Reach S v o' /\ rank o' < rank o) /\
  (forall o o', Reach S v o -> Reach S v o' -> o_name (S o) = o_name (S o') -> o = o') /\
  (forall o f, Reach S v o -> In f (o_fields (S o)) -> plain_keys (snd f)) /\
  (forall o, Reach S v o -> rank o < B) /\ within (Reach S v) rank B v.
Proof.
  destruct SV as [(rank & HR) HN (HK1 & HK2)]. exists rank, (Datatypes.S (maxl (map rank (orefs v ++ mrefs v)))).
  assert (RB : forall o, Reach S v o -> rank o < Datatypes.S (maxl (map rank (orefs v ++ mrefs v)))).
  { induction 1.
    - apply occurs_refs in H. assert (rank o <= maxl (map rank (orefs v ++ mrefs v))) by (apply maxl_le, in_map; auto). lia.
    - assert (rank o < rank p) by eauto. lia. }
  split; [|split; [|split; [|split]]].
  - intros o [a w] o' Ho Hf Ho'. cbn in Ho'. apply occurs_refs in Ho'. split; [eapply reach_field; eauto|eauto].
  - auto.
  - intros o [a w] Ho Hf. apply no_reserved. eauto.
  - auto.
  - intros o Ho. apply occurs_refs in Ho. split; [now apply reach_here|]. apply RB. now apply reach_here.
Qed.

Lemma saved : exists rank B,
  (forall o f o', Reach S v o -> In f (o_fields (S o)) -> In o' (orefs (snd f) ++ mrefs (snd f)) -> Reach S v o' /\ rank o' < rank o) /\
  (forall o f, Reach S v o -> In f (o_fields (S o)) -> plain_keys (snd f)) /\
  (forall o, Reach S v o -> rank o < B) /\ within (Reach S v) rank B v /\
  exists F ser, (forall fuel, F <= fuel -> simson S fuel v = Some (jv S B v, ser)) /\ NoDup (map fst ser) /\
    (forall n, In n (map fst ser) <-> exists o, Use S v o /\ n = o_name (S o)) /\
    forall o, Use S v o -> Reach S v o /\ get (o_name (S o)) ser = Some (jd S B o).
Proof.
  destruct setup as (rank & B & HF & HN & HK & HB & HW). exists rank, B. do 4 (split; [assumption|]).
  destruct (enc_encodes S (Reach S v) rank B HF HN HK HB B v HW) as (F & H).
  assert (O : SerOK S (Reach S v) B []) by (split; [constructor|intros n j Hn; discriminate]).
  destruct (H F (le_n _) [] O) as (ser & E & G).
  assert (FU : forall fuel, F <= fuel -> enc S fuel [] v = Some (jv S B v, ser)).
  { intros fuel Hf. destruct (H fuel Hf [] O) as (ser' & E' & _). rewrite E'. do 2 f_equal.
    assert (ML : forall {A C} (f g : list (nat * json) -> A -> option (C * list (nat * json))) l ser0 r, (forall s a r, In a l -> f s a = Some r -> g s a = Some r) -> mapS f ser0 l = Some r -> mapS g ser0 l = Some r).
    { clear. induction l as [|a l IH]; intros ser0 r H; cbn; auto. destruct (f ser0 a) as [[b s1]|] eqn:E1; [|discriminate]. rewrite (H ser0 a _ (or_introl eq_refl) E1).
      destruct (mapS f s1 l) as [[bs s2]|] eqn:E2; [|discriminate]. rewrite (IH s1 _ (fun s a r I => H s a r (or_intror I)) E2). auto. }
    assert (MO : forall k k', k <= k' -> forall s x r, enc S k s x = Some r -> enc S k' s x = Some r).
    { clear - ML. induction k as [|k IH]; intros [|k'] Hk s x r E; cbn [enc] in *; try discriminate; [lia|].
      assert (IH' := IH k' ltac:(lia)).
      assert (FL : forall o s r, mapS (fun ser f => match enc S k ser (snd f) with Some (j, ser') => Some (KUser (fst f), j, ser') | None => None end) s (o_fields (S o)) = Some r ->
                   mapS (fun ser f => match enc S k' ser (snd f) with Some (j, ser') => Some (KUser (fst f), j, ser') | None => None end) s (o_fields (S o)) = Some r).
      { intros o s0 r0. apply ML. intros s1 f r1 _. destruct (enc S k s1 (snd f)) as [[j s2]|] eqn:E1; [|discriminate]. now rewrite (IH' _ _ _ E1). }
      destruct x as [a|l|l|o|o m]; auto.
      - destruct (mapS (enc S k) s l) as [[js s']|] eqn:E1; [|discriminate]. rewrite (ML _ _ (enc S k) (enc S k') l s _ (fun s a r _ => IH' s a r) E1). auto.
      - destruct (mapS _ s l) as [[js s']|] eqn:E1 in E; [|discriminate].
        assert (DL : mapS (fun ser e => match enc S k' ser (snd e) with Some (j, ser') => Some (fst e, j, ser') | None => None end) s l = Some (js, s')).
        { revert E1. apply ML. intros s1 f r1 _. destruct (enc S k s1 (snd f)) as [[j s2]|] eqn:E2; [|discriminate]. now rewrite (IH' _ _ _ E2). }
        rewrite DL. auto.
      - destruct (get (o_name (S o)) s); auto. destruct (mapS _ s (o_fields (S o))) as [[js s']|] eqn:E1 in E; [|discriminate]. now rewrite (FL _ _ _ E1).
      - destruct (mapS _ s (o_fields (S o))) as [[js s']|] eqn:E1 in E; [|discriminate]. now rewrite (FL _ _ _ E1). }
    specialize (MO F fuel Hf _ _ _ E). congruence. }
  exists F, ser. split; [exact FU|]. destruct G as (G1 & G2 & G3). split; [apply G1|].
  assert (KE : forall n, In n (map fst ser) <-> exists o, Use S v o /\ n = o_name (S o)).
  { intros n. rewrite <- get_keys. fold (has ser n). rewrite G3. split; auto. intros [(j & Hj)|]; auto. discriminate. }
  split; [exact KE|].
  intros o HU. assert (HRo : Reach S v o) by (eapply Use_Reach; eauto; intros; now apply reach_here). split; auto.
  assert (In (o_name (S o)) (map fst ser)) as HI by (apply KE; eauto). apply get_keys in HI. destruct HI as (j & Hj). rewrite Hj. f_equal.
  destruct (proj2 G1 _ _ Hj) as (o' & HQ & Hn & -> & _). f_equal. symmetry. apply (sv_names _ _ SV); auto.
Qed.
End Setup.

(** ** C25 *)
(** every saveable graph can be saved and loaded back, and the loaded value shows, at every depth, the same
    classes, constructor arguments, list and dictionary entries and bound methods as the saved one *)
Theorem C25_contents_preserved S v : saveable S v ->
  exists F j ser v' t, (forall fuel, F <= fuel -> simson S fuel v = Some (j, ser)) /\
    load ser F j = DOk v' t /\ forall r, unf (heap_of (made t)) r v' = unf S r v.
Proof.
  intros SV. destruct (saved S v SV) as (rank & B & HF & HK & HB & HW & F & ser & HE & _ & _ & HT).
  assert (HN := sv_names _ _ SV).
  destruct (dec_content S (Reach S v) rank B HF HN HK HB ser (Use S v) HT (fun o f o' => Use_step S v o f o') B v HW (no_reserved _ (proj1 (sv_keys _ _ SV))) (fun o H => H)) as (F' & HD).
  destruct (HD (F + F') ltac:(lia) (mkDst [] [])) as (v' & t & E & _ & _ & _ & HC).
  { split; [intros i f Hi; cbn in Hi; lia|intros n w Hn; discriminate]. }
  exists (F + F'), (jv S B v), ser, v', t. split; [intros fuel Hf; apply HE; lia|]. split; [exact E|exact HC].
Qed.

(** without bound methods, the loaded graph is the saved one up to a one-to-one renaming of the objects:
    one object in the file and one new object per reachable object, shared exactly where it was shared *)
Theorem C25_graph_preserved S v : saveable S v -> method_free S v ->
  exists F j ser v' t phi, (forall fuel, F <= fuel -> simson S fuel v = Some (j, ser)) /\ load ser F j = DOk v' t /\
    NoDup (map fst ser) /\ (forall n, In n (map fst ser) <-> exists o, Reach S v o /\ n = o_name (S o)) /\
    (forall o o', Reach S v o -> Reach S v o' -> phi o = phi o' -> o = o') /\
    (forall i, i < length (made t) <-> exists o, Reach S v o /\ i = phi o) /\
    v' = rename phi v /\
    forall o, Reach S v o -> o_cls (heap_of (made t) (phi o)) = o_cls (S o) /\
      o_fields (heap_of (made t) (phi o)) = map (fun f => (fst f, rename phi (snd f))) (o_fields (S o)).
Proof.
  intros SV MF. destruct (saved S v SV) as (rank & B & HF & HK & HB & HW & F & ser & HE & HND & HKE & HT).
  assert (HN := sv_names _ _ SV).
  assert (RU : forall o, Use S v o <-> Reach S v o). { intros o. split; [apply HT|now apply Reach_Use]. }
  destruct (dec_iso S (Reach S v) rank B HF HN HK HB ser (Use S v) HT (fun o f o' => Use_step S v o f o')) with (b := B) (v := v) as (F' & HD); auto.
  { intros o [a w] Ho Hf. apply no_method. apply RU in Ho. destruct MF as [_ M]. eauto. }
  { apply no_reserved, SV. } { apply no_method, MF. }
  destruct (HD (F + F') ltac:(lia) (mkDst [] [])) as (v' & t & E & ((O1 & O2 & O3) & NN) & _ & HC & EV).
  { split; [|split]; cbn; [discriminate|discriminate|intros i Hi; lia]. }
  exists (F + F'), (jv S B v), ser, v', t, (rl S t).
  split; [intros fuel Hf; apply HE; lia|]. split; [exact E|]. split; [exact HND|]. split; [intros n; rewrite HKE; split; intros (o & Ho & ->); exists o; split; auto; now apply RU|].
  assert (KN : forall o, Reach S v o -> exists i, get (o_name (S o)) (recon t) = Some (VObj i)).
  { induction 1.
    - apply HC. now apply occurs_refs.
    - destruct IHReach as (i & Hi). destruct (O1 _ _ Hi) as (p' & k & HU' & Hn & _ & Hk & _ & FF). apply HN in Hn; auto; [|now apply RU]. subst p'.
      clear - FF H0 H1. revert FF. generalize (o_fields (heap_of (made t) k)). induction (o_fields (S p)) as [|f l IH]; [destruct H0|]. intros l' FF. inversion FF as [|f' c l1 cs HR HFF]; subst.
      destruct H0 as [->|H0]; [|now apply (IH H0 _ HFF)]. destruct HR as [_ [HR _]]. apply HR. now apply occurs_refs. }
  assert (RL : forall o i, get (o_name (S o)) (recon t) = Some (VObj i) -> rl S t o = i) by (intros o i H; unfold rl; now rewrite H).
  split; [|split; [|split; [exact EV|]]].
  - intros o o' Ho Ho' Ee. destruct (KN o Ho) as (i & Hi). destruct (KN o' Ho') as (i' & Hi'). rewrite (RL _ _ Hi), (RL _ _ Hi') in Ee. subst i'. apply HN; auto. eapply O2; eauto.
  - intros i. split.
    + intros Hi. destruct (O3 i Hi) as (n & Hn). destruct (O1 _ _ Hn) as (o & k & HU & -> & Ek & _). injection Ek as <-. exists o. split; [now apply RU|]. symmetry. now apply RL.
    + intros (o & Ho & ->). destruct (KN o Ho) as (i & Hi). rewrite (RL _ _ Hi). destruct (O1 _ _ Hi) as (_ & k & _ & _ & Ek & Hk & _). now injection Ek as ->.
  - intros o Ho. destruct (KN o Ho) as (i & Hi). rewrite (RL _ _ Hi). destruct (O1 _ _ Hi) as (o' & k & HU & Hn & Ek & Hk & Hc & FF).
    apply HN in Hn; auto; [|now apply RU]. subst o'. injection Ek as <-. split; auto.
    clear - FF. induction FF as [|f [a w] l l' [H1 [_ H2]] _ IH]; cbn in *; auto. now rewrite IH, H1, H2.
Qed.

(** ** C26: two objects with the same name.  The property "both survive" is false: whatever is loaded, the
    two positions hold one and the same object, so if the classes differ the contents are not preserved. *)
(** saving never changes an entry of the table *)
Lemma enc_keeps S : forall k s v r, enc S k s v = Some r -> forall x d, get x s = Some d -> get x (snd r) = Some d.
Proof.
  assert (ML : forall {A C} (f : list (nat * json) -> A -> option (C * list (nat * json))) l s r, (forall s a r, f s a = Some r -> forall x d, get x s = Some d -> get x (snd r) = Some d) ->
     mapS f s l = Some r -> forall x d, get x s = Some d -> get x (snd r) = Some d).
  { clear. induction l as [|a l IH]; intros s r H E x d Hx; cbn in E; [injection E as <-; auto|]. destruct (f s a) as [[b s1]|] eqn:E1; [|discriminate].
    destruct (mapS f s1 l) as [[bs s2]|] eqn:E2; [|discriminate]. injection E as <-. cbn. apply (IH _ _ H E2). apply (H _ _ _ E1). auto. }
  induction k as [|k IH]; intros s v r E x d Hx; cbn [enc] in E; [discriminate|].
  assert (FL : forall o s r, mapS (fun ser f => match enc S k ser (snd f) with Some (j, ser') => Some (KUser (fst f), j, ser') | None => None end) s (o_fields (S o)) = Some r ->
     forall x d, get x s = Some d -> get x (snd r) = Some d).
  { intros o s0 r0. apply ML. intros s1 f r1 E1 y dy Hy. destruct (enc S k s1 (snd f)) as [[j s2]|] eqn:E2; [|discriminate]. injection E1 as <-. apply (IH _ _ _ E2 _ _ Hy). }
  destruct v as [a|l|l|o|o m].
  - injection E as <-. auto.
  - destruct (mapS (enc S k) s l) as [[js s']|] eqn:E1; [|discriminate]. injection E as <-. apply (ML _ _ _ _ _ _ IH E1). auto.
  - destruct (mapS _ s l) as [[js s']|] eqn:E1 in E; [|discriminate]. injection E as <-. refine (ML _ _ _ _ _ _ _ E1 x d Hx).
    intros s1 f r1 E2 y dy Hy. destruct (enc S k s1 (snd f)) as [[j s2]|] eqn:E3; [|discriminate]. injection E2 as <-. apply (IH _ _ _ E3 _ _ Hy).
  - destruct (get (o_name (S o)) s) eqn:G. { injection E as <-. auto. }
    destruct (mapS _ s (o_fields (S o))) as [[js s']|] eqn:E1 in E; [|discriminate]. injection E as <-. cbn [snd]. rewrite get_put.
    destruct (Nat.eqb_spec (o_name (S o)) x) as [<-|]; [congruence|]. apply (FL _ _ _ E1). auto.
  - destruct (mapS _ s (o_fields (S o))) as [[js s']|] eqn:E1 in E; [|discriminate]. injection E as <-. cbn [snd]. apply (FL _ _ _ E1). auto.
Qed.
Lemma enc_obj S fuel ser o r : enc S fuel ser (VObj o) = Some r -> fst r = jref S o.
Proof.
  intros E. destruct fuel as [|k]; [discriminate|]. cbn [enc] in E. destruct (get _ ser). { injection E as <-. reflexivity. } destruct (mapS _ ser _) as [[js s']|]; [|discriminate]. injection E as <-. reflexivity.
Qed.
Theorem C26_equal_names_confused S o1 o2 fuel j ser fuel' v' t : o_name (S o1) = o_name (S o2) ->
  simson S fuel (VList [VObj o1; VObj o2]) = Some (j, ser) -> load ser fuel' j = DOk v' t -> exists w, v' = VList [w; w].
Proof.
  intros HN E L. unfold simson in E. destruct fuel as [|fuel]; [discriminate|]. cbn [enc mapS] in E.
  destruct (enc S fuel [] (VObj o1)) as [[j1 s1]|] eqn:E1; [|discriminate]. destruct (enc S fuel s1 (VObj o2)) as [[j2 s2]|] eqn:E2; [|discriminate].
  injection E as <- <-. assert (J1 := enc_obj _ _ _ _ _ E1). assert (J2 := enc_obj _ _ _ _ _ E2). cbn in J1, J2. subst j1 j2.
  unfold load in L. destruct fuel' as [|f]; [discriminate|]. cbn [dec mapD] in L. destruct f as [|f]; [discriminate|]. rewrite !dec_jref in L. cbn [recon get] in L.
  destruct (get (o_name (S o1)) s2) as [sub|] eqn:G; [|discriminate]. destruct (dec s2 f (mkDst [] []) sub) as [| |w t'] eqn:D; try discriminate.
  rewrite dec_jref in L. cbn [put_recon recon] in L. rewrite <- HN, get_put, Nat.eqb_refl in L. injection L as <- <-. now exists w.
Qed.
Theorem C26_not_preserved S o1 o2 fuel j ser fuel' v' t : o_name (S o1) = o_name (S o2) -> o_cls (S o1) <> o_cls (S o2) ->
  simson S fuel (VList [VObj o1; VObj o2]) = Some (j, ser) -> load ser fuel' j = DOk v' t ->
  ~ forall r, unf (heap_of (made t)) r v' = unf S r (VList [VObj o1; VObj o2]).
Proof.
  intros HN HC E L H. destruct (C26_equal_names_confused _ _ _ _ _ _ _ _ _ HN E L) as (w & ->). specialize (H 2). cbn [unf map] in H. injection H as H1 H2. congruence.
Qed.

(** ** C51: an object reached through a bound method is written out in place and constructed anew, so two
    bound methods of one object (or the object followed by one of its methods) come back as two objects *)
Lemma mapS_user S fuel s l r : mapS (fun ser f => match enc S fuel ser (snd f) with Some (j, ser') => Some (KUser (fst f), j, ser') | None => None end) s l = Some r ->
  exists h, fst r = map (fun f => (KUser (fst f), h f)) (combine (map fst l) (map snd (fst r))).
Proof.
  intros E. exists snd. revert s r E. induction l as [|[a w] l IH]; intros s r E; cbn in E; [injection E as <-; reflexivity|].
  destruct (enc S fuel s w) as [[j s1]|]; [|discriminate]. destruct (mapS _ s1 l) as [[bs s2]|] eqn:E2 in E; [|discriminate]. injection E as <-.
  cbn. f_equal. apply (IH _ _ E2).
Qed.
Lemma enc_meth S fuel s o m r : enc S fuel s (VMeth o m) = Some r ->
  exists l h, fst r = JDict [(KCallable, JAtom m); (KBound, jobj S (map (fun f : nat * json => (KUser (fst f), h f)) l) o)].
Proof.
  destruct fuel as [|k]; [discriminate|]. cbn [enc]. destruct (mapS _ s (o_fields (S o))) as [[fs s']|] eqn:E; [|discriminate]. intros H. injection H as <-.
  destruct (mapS_user _ _ _ _ _ E) as (h & Hh). cbn [fst] in *. eexists; exists h. unfold jobj. rewrite Hh at 1. reflexivity.
Qed.
Lemma mapD_mono {A C} (f : dst -> A -> dres C) l : (forall t a c t', In a l -> f t a = DOk c t' -> length (made t) <= length (made t')) ->
  forall t cs t', mapD f t l = DOk cs t' -> length (made t) <= length (made t').
Proof.
  intros H. induction l as [|a l IH]; intros t cs t' E; cbn in E; [injection E as _ <-; auto|]. destruct (f t a) as [| |c t1] eqn:E1; try discriminate.
  destruct (mapD f t1 l) as [| |cs2 t2] eqn:E2; try discriminate. injection E as _ <-. apply H in E1; [|now left]. apply IH in E2; [lia|]. intros t0 b c0 t0' Hb Eb. exact (H t0 b c0 t0' (or_intror Hb) Eb).
Qed.
Lemma dec_mono ser fuel : forall t j v t', dec ser fuel t j = DOk v t' -> length (made t) <= length (made t').
Proof.
  induction fuel as [|fuel IH]; intros t j v t' E; cbn [dec] in E; [discriminate|].
  assert (RF : forall n v t', (match get n (recon t) with Some v => DOk v t | None => match get n ser with None => DErr EKey
     | Some sub => match dec ser fuel t sub with DNoFuel => DNoFuel | DErr e => DErr e | DOk v t' => DOk v (put_recon n v t') end end end) = DOk v t' -> length (made t) <= length (made t')).
  { intros n v0 t0 E0. destruct (get n (recon t)); [injection E0 as _ <-; auto|]. destruct (get n ser) as [sub|]; [|discriminate].
    destruct (dec ser fuel t sub) as [| |w t1] eqn:D; try discriminate. injection E0 as _ <-. exact (IH _ _ _ _ D). }
  assert (MD : forall d v t', match mapD (fun t e => match dec ser fuel t (snd e) with DNoFuel => DNoFuel | DErr e => DErr e | DOk v t' => DOk (fst e, v) t' end) t d with
     | DNoFuel => DNoFuel | DErr e => DErr e | DOk vs t' => DOk (@VDict vs) t' end = DOk v t' -> length (made t) <= length (made t')).
  { intros d v0 t0 E0. destruct (mapD _ t d) as [| |vs t1] eqn:D; try discriminate. injection E0 as _ <-. revert D. apply mapD_mono.
    intros t2 [k x] c t3 _ E2. cbn in E2. destruct (dec ser fuel t2 x) as [| |w t4] eqn:D; try discriminate. injection E2 as _ <-. eauto. }
  assert (CL : forall d v t', (match jget KClass d with
        | Some (JAtom c) =>
          match mapD (fun t e => match dec ser fuel t (snd e) with DNoFuel => DNoFuel | DErr e => DErr e
                                 | DOk v t' => match fst e with KUser n => DOk (n, v) t' | _ => DErr EType end end)
                     t (filter (fun e => negb (is_at (fst e))) d) with
          | DNoFuel => DNoFuel | DErr e => DErr e
          | DOk fs t' =>
            let v := VObj (length (made t')) in
            let t'' := mkDst (recon t') (made t' ++ [mkObj c (length (made t')) fs]) in
            match jget KObjName d with
            | Some (JAtom n) => DOk v (put_recon n v t'')
            | _ => DOk v t''
            end
          end
        | Some _ => DErr EType
        | None =>
          match jget KCallable d, jget KBound d with
          | Some (JAtom m), Some b =>
            match dec ser fuel t b with
            | DNoFuel => DNoFuel | DErr e => DErr e
            | DOk (VObj o) t' => DOk (VMeth o m) t'
            | DOk _ _ => DErr EAttribute
            end
          | _, _ =>
            match mapD (fun t e => match dec ser fuel t (snd e) with DNoFuel => DNoFuel | DErr e => DErr e | DOk v t' => DOk (fst e, v) t' end) t d with
            | DNoFuel => DNoFuel | DErr e => DErr e | DOk vs t' => DOk (VDict vs) t'
            end
          end
        end) = DOk v t' -> length (made t) <= length (made t')).
  { intros d v0 t0 E0. destruct (jget KClass d) as [[c|l|l]|]; try discriminate.
    - destruct (mapD _ t _) as [| |fs t1] eqn:D; try discriminate. assert (length (made t) <= length (made t1)).
      { revert D. apply mapD_mono. intros t2 [k x] c2 t3 _ E2. cbn in E2. destruct (dec ser fuel t2 x) as [| |w t4] eqn:D; try discriminate. destruct k; try discriminate. injection E2 as _ <-. eauto. }
      destruct (jget KObjName d) as [[n|l|l]|]; injection E0 as _ <-; cbn [made put_recon]; rewrite app_length; cbn; lia.
    - destruct (jget KCallable d) as [[m|l|l]|]; eauto. destruct (jget KBound d) as [b|]; eauto.
      destruct (dec ser fuel t b) as [| |w t1] eqn:D; try discriminate. destruct w; try discriminate. injection E0 as _ <-. eauto. }
  destruct j as [a|l|d].
  - injection E as _ <-. auto.
  - destruct (mapD (dec ser fuel) t l) as [| |vs t1] eqn:D; try discriminate. injection E as _ <-. revert D. apply mapD_mono. intros; eauto.
  - destruct (jget KType d) as [[[|a]|l|l]|]; eauto. destruct (jget KValue d) as [[n|l|l]|]; try discriminate. eauto.
Qed.
(** a written-out object is always constructed anew *)
Lemma dec_written ser fuel t fs h o v t' : dec ser fuel t (jobj (fun _ => o) (map (fun f : nat * json => (KUser (fst f), h f)) fs) 0) = DOk v t' ->
  exists i, v = VObj i /\ length (made t) <= i < length (made t').
Proof.
  destruct fuel as [|fuel]; [discriminate|]. unfold jobj. cbn [dec jget jkey_eqb filter is_at fst negb].
  rewrite (jget_user KType fst h) by congruence. rewrite (filter_user fst h). intros E.
  destruct (mapD _ t _) as [| |gs t1] eqn:D; try discriminate. injection E as <- <-. exists (length (made t1)). split; auto. cbn [made put_recon]. rewrite app_length. cbn. split; [|lia].
  revert D. apply mapD_mono. intros t2 [k x] c t3 _ E2. cbn in E2. destruct (dec ser fuel t2 x) as [| |w t4] eqn:D; try discriminate. destruct k; try discriminate. injection E2 as _ <-. eapply dec_mono; eauto.
Qed.
Theorem C51_methods_split S o m1 m2 fuel j ser fuel' v' t :
  simson S fuel (VList [VMeth o m1; VMeth o m2]) = Some (j, ser) -> load ser fuel' j = DOk v' t ->
  exists i1 i2, v' = VList [VMeth i1 m1; VMeth i2 m2] /\ i1 <> i2.
Proof.
  intros E L. unfold simson in E. destruct fuel as [|fuel]; [discriminate|]. cbn [enc mapS] in E.
  destruct (enc S fuel [] (VMeth o m1)) as [[j1 s1]|] eqn:E1; [|discriminate]. destruct (enc S fuel s1 (VMeth o m2)) as [[j2 s2]|] eqn:E2; [|discriminate].
  injection E as <- <-. destruct (enc_meth _ _ _ _ _ _ E1) as (l1 & h1 & J1). destruct (enc_meth _ _ _ _ _ _ E2) as (l2 & h2 & J2). cbn in J1, J2. subst j1 j2.
  unfold load in L. destruct fuel' as [|f]; [discriminate|]. cbn [dec mapD] in L. destruct f as [|f]; [discriminate|]. cbn [dec jget jkey_eqb] in L.
  destruct (dec s2 f (mkDst [] []) _) as [| |w1 t1] eqn:D1 in L; try discriminate. change (jobj S) with (jobj S) in D1.
  assert (W1 := dec_written s2 f (mkDst [] []) l1 h1 (S o) w1 t1 D1). destruct W1 as (i1 & -> & B1).
  destruct (dec s2 f t1 _) as [| |w2 t2] eqn:D2 in L; try discriminate.
  assert (W2 := dec_written s2 f t1 l2 h2 (S o) w2 t2 D2). destruct W2 as (i2 & -> & B2).
  injection L as <- <-. exists i1, i2. split; auto. lia.
Qed.
(** ... also when the object itself was already loaded *)
Theorem C51_object_and_method_split S o m fuel j ser fuel' v' t :
  simson S fuel (VList [VObj o; VMeth o m]) = Some (j, ser) -> load ser fuel' j = DOk v' t ->
  exists i1 i2, v' = VList [VObj i1; VMeth i2 m] /\ i1 <> i2.
Proof.
  intros E L. unfold simson in E. destruct fuel as [|fuel]; [discriminate|]. cbn [enc mapS] in E.
  destruct (enc S fuel [] (VObj o)) as [[j1 s1]|] eqn:E1; [|discriminate]. destruct (enc S fuel s1 (VMeth o m)) as [[j2 s2]|] eqn:E2; [|discriminate].
  injection E as <- <-. assert (J1 := enc_obj _ _ _ _ _ E1). destruct (enc_meth _ _ _ _ _ _ E2) as (l2 & h2 & J2). cbn in J1, J2. subst j1 j2.
  unfold load in L. destruct fuel' as [|f]; [discriminate|]. cbn [dec mapD] in L. destruct f as [|f]; [discriminate|]. rewrite dec_jref in L. cbn [recon get] in L.
  destruct (get (o_name (S o)) s2) as [sub|] eqn:G; [|discriminate].
  destruct (dec s2 f (mkDst [] []) sub) as [| |w1 t1] eqn:D1; try discriminate. cbn [dec jget jkey_eqb] in L.
  destruct (dec s2 f (put_recon _ _ _) _) as [| |w2 t2] eqn:D2 in L; try discriminate.
  assert (W2 := dec_written s2 f _ l2 h2 (S o) w2 t2 D2). destruct W2 as (i2 & -> & B2). injection L as <- <-. cbn [made put_recon] in B2.
  (* the first object was built before *)
  assert (BD : exists i1, w1 = VObj i1 /\ i1 < length (made t1)); [clear - D1 G E1 E2|destruct BD as (i1 & -> & BD); exists i1, i2; split; auto; lia].
  (* sub is the written-out dictionary of [o] *)
  assert (exists l h, sub = jobj S (map (fun f : nat * json => (KUser (fst f), h f)) l) o) as (l & h & ->).
  { destruct fuel as [|k]; [discriminate|]. cbn [enc get] in E1. destruct (mapS _ [] (o_fields (S o))) as [[fs s']|] eqn:M in E1; [|discriminate]. injection E1 as <-.
    destruct (mapS_user _ _ _ _ _ M) as (h & Hh). cbn [fst] in Hh.
    assert (KEEP : forall x d, get x (put (o_name (S o)) (JDict ((KClass, JAtom (o_cls (S o))) :: (KObjName, JAtom (o_name (S o))) :: fs)) s') = Some d -> get x s2 = Some d) by (intros x d; apply (enc_keeps _ _ _ _ _ E2)).
    rewrite (KEEP _ (JDict ((KClass, JAtom (o_cls (S o))) :: (KObjName, JAtom (o_name (S o))) :: fs))) in G by now rewrite get_put, Nat.eqb_refl.
    injection G as <-. eexists; exists h. unfold jobj. rewrite Hh at 1. reflexivity. }
  destruct (dec_written s2 f (mkDst [] []) l h (S o) _ _ D1) as (i & -> & B). exists i. split; auto. lia.
Qed.

(** ** C52: class redirects.  [REDIRECT] says: old class [c] of module [m] is now [c'] of module [m']. *)
Definition redirects_to (R : redirects) (m c m' c' : nat) := exists l, get m R = Some l /\ get c l = Some (m', c').
(** classes without a redirect are left alone; a redirect inside one module works *)
Theorem C52_no_redirect R m c : (forall m' c', ~ redirects_to R m c m' c') -> redirect R m c = inl (m, c).
Proof.
  intros H. unfold redirect. destruct (get m R) as [l|] eqn:E; auto. destruct (get c l) as [[m' c']|] eqn:E'; auto.
  exfalso. apply (H m' c'). exists l. auto.
Qed.
Theorem C52_same_module R m c c' : redirects_to R m c m c' -> redirect R m c = inl (m, c').
Proof. intros (l & H1 & H2). unfold redirect. now rewrite H1, H2, H1, H2. Qed.
(** but a class that moved to another module cannot be loaded: KeyError, unless the class of the same name
    in the new module is redirected itself, and then the result is a mixture of the two redirects *)
Theorem C52_moved_fails R m c m' c' : redirects_to R m c m' c' -> (forall x y, ~ redirects_to R m' c x y) -> redirect R m c = inr EKey.
Proof.
  intros (l & H1 & H2) N. unfold redirect. rewrite H1, H2. destruct (get m' R) as [l'|] eqn:E; auto. destruct (get c l') as [[x y]|] eqn:E'; auto.
  exfalso. apply (N x y). exists l'. auto.
Qed.
Theorem C52_moved_mixture R m c m' c' x y : redirects_to R m c m' c' -> redirects_to R m' c x y -> redirect R m c = inl (m', y).
Proof. intros (l & H1 & H2) (l' & H3 & H4). unfold redirect. now rewrite H1, H2, H3, H4. Qed.

(** ** C53: user dictionaries with reserved keys do not survive (why C25 excludes them) *)
Theorem C53_ref_dict_fails S fuel fuel' n j ser : simson S (2 + fuel) (VDict [(KType, VAtom REF); (KValue, VAtom n)]) = Some (j, ser) ->
  load ser (Datatypes.S fuel') j = DErr EKey.
Proof. intros E. cbn in E. injection E as <- <-. reflexivity. Qed.
Theorem C53_class_dict_becomes_object S fuel fuel' c j ser : simson S (2 + fuel) (VDict [(KClass, VAtom c)]) = Some (j, ser) ->
  exists t, load ser (Datatypes.S fuel') j = DOk (VObj 0) t /\ made t = [mkObj c 0 []].
Proof. intros E. cbn in E. injection E as <- <-. eexists. split; reflexivity. Qed.

(** ** examples: the hypotheses are met by a diamond with lists and dictionaries *)
(** 0: leaf; 1 and 2 hold 0; 3 holds both in a list and 0 again in a dictionary *)
Definition diamond (o : nat) : obj :=
  match o with
  | 0 => mkObj 10 100 [(0, VAtom 7)]
  | 1 => mkObj 11 101 [(0, VObj 0)]
  | 2 => mkObj 11 102 [(0, VObj 0); (1, VAtom 3)]
  | 3 => mkObj 12 103 [(0, VList [VObj 1; VObj 2]); (1, VDict [(KUser 5, VObj 0)])]
  | n => mkObj n n []
  end.
Ltac occ := repeat match goal with
  | H : occurs _ (VAtom _) |- _ => inversion H
  | H : occurs _ (VObj _) |- _ => inversion H; subst; clear H
  | H : occurs _ (VMeth _ _) |- _ => inversion H; subst; clear H
  | H : occurs _ (VList _) |- _ => inversion H; subst; clear H
  | H : occurs _ (VDict _) |- _ => inversion H; subst; clear H
  | H : In _ [] |- _ => destruct H
  | H : In _ (_ :: _) |- _ => destruct H as [H|H]
  | H : (_, _) = (_, _) |- _ => apply pair_equal_spec in H; destruct H
  | H : ?x = ?x |- _ => clear H
  | H : _ = ?y |- _ => is_var y; subst y
  | H : _ \/ _ |- _ => destruct H
  | H : False |- _ => destruct H
  end; subst.
Lemma diamond_reach o : Reach diamond (VList [VObj 3; VObj 2]) o -> o <= 3.
Proof.
  induction 1 as [o H|p a w o _ IH H1 H2]; [occ; lia|].
  assert (p = 0 \/ p = 1 \/ p = 2 \/ p = 3) as [-> |[-> |[-> | ->]]] by lia; cbn in H1; occ; lia.
Qed.
Lemma plain_not_reserved v : plain_keys v -> ~ has_reserved v.
Proof.
  intros P H. induction H.
  - apply plain_dict in P. rewrite Forall_forall in P. destruct (P _ H) as [(n & Hn) _]. cbn in Hn. now apply (H0 n).
  - apply plain_list in P. rewrite Forall_forall in P. auto.
  - apply plain_dict in P. rewrite Forall_forall in P. apply IHhas_reserved. now apply (P _ H).
Qed.
Lemma nometh_not_method v : no_methods v -> ~ has_method v.
Proof.
  intros P H. induction H.
  - exact P.
  - apply nometh_list in P. rewrite Forall_forall in P. auto.
  - apply nometh_dict in P. rewrite Forall_forall in P. apply IHhas_method. now apply (P _ H).
Qed.
Example diamond_saveable : saveable diamond (VList [VObj 3; VObj 2]) /\ method_free diamond (VList [VObj 3; VObj 2]).
Proof.
  split; [constructor|split].
  - exists (fun o => o). intros o a w o' Ho H1 H2. apply diamond_reach in Ho.
    assert (o = 0 \/ o = 1 \/ o = 2 \/ o = 3) as [-> |[-> |[-> | ->]]] by lia; cbn in H1; occ; lia.
  - intros o o' Ho Ho' E. apply diamond_reach in Ho. apply diamond_reach in Ho'.
    assert (o = 0 \/ o = 1 \/ o = 2 \/ o = 3) as [-> |[-> |[-> | ->]]] by lia;
    assert (o' = 0 \/ o' = 1 \/ o' = 2 \/ o' = 3) as [-> |[-> |[-> | ->]]] by lia; cbn in E; congruence.
  - split; [apply plain_not_reserved; cbn; auto|].
    intros o a w Ho H1. apply diamond_reach in Ho. apply plain_not_reserved.
    assert (o = 0 \/ o = 1 \/ o = 2 \/ o = 3) as [-> |[-> |[-> | ->]]] by lia; cbn in H1; occ; cbn; eauto.
  - apply nometh_not_method; cbn; auto.
  - intros o a w Ho H1. apply diamond_reach in Ho. apply nometh_not_method.
    assert (o = 0 \/ o = 1 \/ o = 2 \/ o = 3) as [-> |[-> |[-> | ->]]] by lia; cbn in H1; occ; cbn; auto.
Qed.
(** bound methods: saved and loaded, contents equal but two objects instead of one *)
Definition two_methods := VList [VMeth 1 8; VMeth 1 9].
Example C51_example : exists j ser t, simson diamond 20 two_methods = Some (j, ser) /\ load ser 20 j = DOk (VList [VMeth 1 8; VMeth 2 9]) t /\
  made t = [mkObj 10 0 [(0, VAtom 7)]; mkObj 11 1 [(0, VObj 0)]; mkObj 11 2 [(0, VObj 0)]].
Proof. do 3 eexists. split; [vm_compute; reflexivity|]. split; vm_compute; reflexivity. Qed.
(** equal names *)
Definition twins (o : nat) : obj := mkObj o 5 [].
Example C26_example : exists j ser t, simson twins 20 (VList [VObj 0; VObj 1]) = Some (j, ser) /\ load ser 20 j = DOk (VList [VObj 0; VObj 0]) t.
Proof. do 3 eexists. split; [vm_compute; reflexivity|]. vm_compute; reflexivity. Qed.
Example C52_example : redirects_to [(1, [(2, (3, 4))])] 1 2 3 4 /\ forall x y, ~ redirects_to [(1, [(2, (3, 4))])] 3 2 x y.
Proof. split; [eexists; split; reflexivity|]. intros x y (l & H & _). discriminate. Qed.

Print Assumptions C25_contents_preserved.
Print Assumptions C25_graph_preserved.
Print Assumptions C26_not_preserved.
Print Assumptions C51_methods_split.
Print Assumptions C51_object_and_method_split.
