(** C22: arithmetic of Derivative objects.
    [sem size h d k]: what Derivative [d] says about object [k]: its stored array, or zeros.
    [ok size h d]: every stored array has the full local size of its key. *)
From Verif Require Import ListAux VecAux DofsModel GraphModel DerivModel.

Definition asem (size : nat -> nat) (h : heap) (z : list (nat * nat)) (k : nat) : list R :=
  match lookup k z with Some a => arr h a | None => zeros (size k) end.
Definition sem size h d k := asem size h (dict h d) k.
Definition arrays (h : heap) (d : nat) : list nat := map snd (dict h d).
Definition ok_items size h (z : list (nat * nat)) :=
  NoDup (map fst z) /\ forall k a, In (k, a) z -> a < narr h /\ length (arr h a) = size k.
Definition ok (size : nat -> nat) (h : heap) (d : nat) : Prop := d < ndict h /\ ok_items size h (dict h d).
(** nothing that existed in [h] is changed in [h'] *)
Definition extends (h h' : heap) : Prop :=
  narr h <= narr h' /\ ndict h <= ndict h' /\
  (forall a, a < narr h -> arr h' a = arr h a) /\ (forall d, d < ndict h -> dict h' d = dict h d).
(** [d] is a new Derivative with its own new arrays *)
Definition new_in (h h' : heap) (d : nat) : Prop :=
  ndict h <= d /\ (forall a, In a (arrays h' d) -> narr h <= a) /\ NoDup (arrays h' d).

Lemma lookup_In k z a : lookup k z = Some a -> In (k, a) z.
Proof.
  induction z as [|[k' a'] z IH]; cbn; [discriminate|]. destruct (Nat.eqb_spec k' k); intros H; [injection H as <-; subst; auto|auto].
Qed.
Lemma lookup_None k z : lookup k z = None <-> ~ In k (map fst z).
Proof.
  induction z as [|[k' a'] z IH]; cbn; [tauto|]. destruct (Nat.eqb_spec k' k); [split; [discriminate|intros H; exfalso; auto]|].
  rewrite IH. split; [intros H [|]; auto|auto].
Qed.
Lemma In_lookup k z a : NoDup (map fst z) -> In (k, a) z -> lookup k z = Some a.
Proof.
  induction z as [|[k' a'] z IH]; cbn; [tauto|]. intros N. inversion_clear N as [|? ? N1 N2]. intros [H|H].
  - injection H as -> ->. now rewrite Nat.eqb_refl.
  - destruct (Nat.eqb_spec k' k) as [->|]; auto. exfalso. apply N1. now apply in_map with (f := fst) in H.
Qed.
Lemma lookup_app k z z' : lookup k (z ++ z') = match lookup k z with Some a => Some a | None => lookup k z' end.
Proof. induction z as [|[k' a'] z IH]; cbn; auto. destruct (k' =? k); auto. Qed.

Lemma fup_same {A} (f : nat -> A) a v : fup f a v a = v. Proof. unfold fup. now rewrite Nat.eqb_refl. Qed.
Lemma fup_other {A} (f : nat -> A) a v b : b <> a -> fup f a v b = f b.
Proof. intros. unfold fup. now rewrite (proj2 (Nat.eqb_neq b a)). Qed.

Lemma extends_refl h : extends h h. Proof. repeat split; auto. Qed.
Lemma extends_trans h1 h2 h3 : extends h1 h2 -> extends h2 h3 -> extends h1 h3.
Proof.
  intros (A1 & B1 & C1 & D1) (A2 & B2 & C2 & D2). repeat split; try lia.
  - intros. rewrite C2, C1; auto; lia. - intros. rewrite D2, D1; auto; lia.
Qed.
Lemma extends_ok size h h' d : extends h h' -> ok size h d -> ok size h' d /\ forall k, sem size h' d k = sem size h d k.
Proof.
  intros (A & B & C & D) (Hd & N & K). unfold ok, sem, ok_items. rewrite D by auto. split.
  - split; [lia|]. split; auto. intros k a H. destruct (K k a H). rewrite C; auto. split; auto. lia.
  - intros k. unfold asem. destruct (lookup k (dict h d)) eqn:E; auto. apply C. apply lookup_In in E. now apply K in E.
Qed.

Lemma copy_spec size items : forall h h' z, copy_items h items = (h', z) -> ok_items size h items ->
  ok_items size h' z /\ map fst z = map fst items /\ (forall k, asem size h' z k = asem size h items k) /\
  NoDup (map snd z) /\ (forall a, In a (map snd z) -> narr h <= a < narr h') /\
  narr h <= narr h' /\ (forall a, a < narr h -> arr h' a = arr h a) /\ dict h' = dict h /\ ndict h' = ndict h.
Proof.
  induction items as [|[k a] items IH]; intros h h' z E (N & K).
  - cbn in E. injection E as <- <-. repeat split; auto; try constructor; try (intros; contradiction); cbn in *; contradiction.
  - cbn [copy_items new_arr] in E.
    destruct (copy_items _ items) as [h2 z2] eqn:E2. injection E as <- <-.
    set (h1 := mkHeap (fup (arr h) (narr h) (arr h a)) (S (narr h)) (dict h) (ndict h)) in *.
    cbn in N. inversion_clear N as [|? ? N1 N2].
    assert (O1 : ok_items size h1 items).
    { split; auto. intros k' a' H. destruct (K k' a' (or_intror H)). cbn. rewrite fup_other by lia. split; auto. }
    destruct (IH _ _ _ E2 O1) as ((N3 & K3) & M & S2 & D2 & F2 & L2 & U2 & X2 & Y2).
    assert (Ka : a < narr h /\ length (arr h a) = size k) by (apply K; now left).
    assert (Ha : arr h2 (narr h) = arr h a). { rewrite U2 by (cbn; lia). cbn. apply fup_same. }
    cbn in L2, F2, U2, X2, Y2.
    split; [|split; [|split; [|split; [|split; [|split; [|split; [|split]]]]]]]; auto; try lia.
    + split. * cbn. rewrite M. now constructor.
      * intros k' a' [H|H]; [injection H as <- <-; rewrite Ha; split; [lia|tauto]|auto].
    + cbn. now rewrite M.
    + intros k'. unfold asem in *. cbn. destruct (Nat.eqb_spec k k') as [<-|Hk]; auto.
      rewrite S2. destruct (lookup k' items) eqn:E; auto. cbn. apply fup_other.
      apply lookup_In in E. destruct (K k' n (or_intror E)). lia.
    + cbn. constructor; auto. intros H. apply F2 in H. lia.
    + intros a' [<-|H]; [cbn; lia|]. apply F2 in H. lia.
    + intros a' H. rewrite U2 by lia. apply fup_other. lia.
Qed.

Section Accum.
Variables (size : nat -> nat) (op : R -> R -> R) (fresh : list R -> list R).
Hypothesis Hfresh : forall v, fresh v = vmap2 op (zeros (length v)) v.
Hypothesis Hop0 : forall a, op a 0%R = a.
Lemma vmap2_zeros_r u n : length u = n -> vmap2 op u (zeros n) = u.
Proof using Hop0. intros <-. unfold zeros. induction u; cbn; auto. f_equal; auto. Qed.
Lemma asem_length h z k : ok_items size h z -> length (asem size h z k) = size k.
Proof using Type. intros [_ K]. unfold asem. destruct (lookup k z) eqn:E; [apply lookup_In in E; now apply K in E|apply zeros_length]. Qed.

Lemma fresh_length v : length (fresh v) = length v.
Proof. rewrite Hfresh, vmap2_length, zeros_length. lia. Qed.

Lemma accum_spec items : forall h z, ok_items size h items -> ok_items size h z -> NoDup (map snd z) ->
  (forall k a k' b, In (k, a) z -> In (k', b) items -> a = b -> k = k') ->
  exists h' z', accum op fresh h z items = (h', z', None) /\ ok_items size h' z' /\ NoDup (map snd z') /\
  (forall k, asem size h' z' k = match lookup k items with
     | Some b => vmap2 op (asem size h z k) (arr h b) | None => asem size h z k end) /\
  (forall a, a < narr h -> ~ In a (map snd z) -> arr h' a = arr h a) /\
  (forall a, In a (map snd z') -> In a (map snd z) \/ narr h <= a) /\
  narr h <= narr h' /\ dict h' = dict h /\ ndict h' = ndict h /\
  (forall k, In k (map fst z') <-> In k (map fst z) \/ In k (map fst items)) /\
  (forall k a, lookup k z = Some a -> lookup k z' = Some a).
Proof.
  induction items as [|[k b] items IH]; intros h z (N & K) (Nz & Kz) Na Sep.
  - exists h, z. split; [reflexivity|]. split; [now split|]. split; auto. split; [reflexivity|].
    split; auto. split; auto. split; auto. split; auto. split; auto. split; auto. cbn. tauto.
  - cbn in N. inversion_clear N as [|? ? N1 N2].
    destruct (K k b (or_introl eq_refl)) as [Hb Lb].
    assert (NL : lookup k items = None) by now apply lookup_None.
    cbn [accum]. destruct (lookup k z) as [a|] eqn:E.
    + pose proof (lookup_In _ _ _ E) as Ia. destruct (Kz k a Ia) as [Ha La].
      unfold np_inplace. rewrite La, Lb, Nat.eqb_refl.
      set (h1 := set_arr h a (vmap2 op (arr h a) (arr h b))).
      assert (LV : length (vmap2 op (arr h a) (arr h b)) = size k) by (rewrite vmap2_length; lia).
      assert (O1 : ok_items size h1 items).
      { split; auto. intros k' b' H. destruct (K k' b' (or_intror H)) as [? ?]. cbn. split; auto. unfold fup.
        destruct (Nat.eqb_spec b' a) as [->|]; auto.
        assert (k = k') by (eapply Sep; [exact Ia|right; exact H|reflexivity]). subst. auto. }
      assert (O2 : ok_items size h1 z).
      { split; auto. intros k' a' H. destruct (Kz k' a' H). cbn. split; auto. unfold fup.
        destruct (Nat.eqb_spec a' a) as [->|]; auto. rewrite LV.
        assert (Some a = Some a) by reflexivity. clear - H Ia Na.
        assert (k = k'); [|now subst]. revert Na H Ia. induction z as [|[p q] z IHz]; cbn; [tauto|]. intros Na.
        inversion_clear Na as [|? ? M1 M2]. intros [P|P] [Q|Q].
        - congruence. - injection P as -> ->. exfalso. apply M1. now apply in_map with (f := snd) in Q.
        - injection Q as -> ->. exfalso. apply M1. now apply in_map with (f := snd) in P. - auto. }
      destruct (IH h1 z O1 O2 Na) as (h' & z' & E' & OK & NA & S & U & F & L & X & Y & KK & LL).
      { intros; eapply Sep; eauto. now right. }
      exists h', z'. split; [exact E'|]. split; auto. split; auto. split; [|split; [|split; [|split; [|split; [|split; [|split]]]]]]; auto.
      * intros k'. rewrite S. cbn [lookup]. destruct (Nat.eqb_spec k k') as [<-|Hk].
        { rewrite NL. unfold asem. rewrite E. apply fup_same. }
        assert (Hz : asem size h1 z k' = asem size h z k').
        { unfold asem. destruct (lookup k' z) as [a'|] eqn:E''; auto. apply fup_other. intros ->.
          apply lookup_In in E''. clear - E'' Ia Na Hk. revert Na E'' Ia. induction z as [|[p q] z IHz]; cbn; [tauto|]. intros Na.
          inversion_clear Na as [|? ? M1 M2]. intros [P|P] [Q|Q].
          - congruence. - injection P as -> ->. exfalso. apply M1. now apply in_map with (f := snd) in Q.
          - injection Q as -> ->. exfalso. apply M1. now apply in_map with (f := snd) in P. - auto. }
        rewrite Hz. destruct (lookup k' items) as [b'|] eqn:E''; auto.
        f_equal. apply fup_other. intros ->. apply Hk. eapply Sep; [exact Ia|right; apply lookup_In; exact E''|reflexivity].
      * intros a' H1 H2. rewrite U; auto. cbn. apply fup_other. intros ->. apply H2. now apply in_map with (f := snd) in Ia.
      * intros k'. rewrite KK. cbn. assert (In k (map fst z)) by (now apply in_map with (f := fst) in Ia). intuition (subst; auto).
    + set (h1 := fst (new_arr h (fresh (arr h b)))). cbn [new_arr]. fold h1.
      assert (Lc : length (fresh (arr h b)) = size k) by (now rewrite fresh_length).
      assert (O1 : ok_items size h1 items).
      { split; auto. intros k' b' H. destruct (K k' b' (or_intror H)) as [? ?]. cbn. rewrite fup_other by lia. split; auto. }
      assert (O2 : ok_items size h1 (z ++ [(k, narr h)])).
      { split.
        - rewrite map_app. cbn. apply Permutation_NoDup with (l := k :: map fst z).
          { apply Permutation_cons_append. } constructor; auto. now apply lookup_None.
        - intros k' a' H. apply in_app_iff in H. destruct H as [H|[H|[]]].
          + destruct (Kz k' a' H). cbn. rewrite fup_other by lia. split; auto.
          + injection H as <- <-. cbn. rewrite fup_same. split; auto. }
      assert (Nc : ~ In (narr h) (map snd z)).
      { intros H. apply in_map_iff in H. destruct H as ([k' a'] & H1 & H2). cbn in H1. subst. apply Kz in H2. lia. }
      assert (Na1 : NoDup (map snd (z ++ [(k, narr h)]))).
      { rewrite map_app. cbn. apply Permutation_NoDup with (l := narr h :: map snd z); [apply Permutation_cons_append|]. now constructor. }
      destruct (IH h1 _ O1 O2 Na1) as (h' & z' & E' & OK & NA & S & U & F & L & X & Y & KK & LL).
      { intros k' a' k'' b' H1 H2 H3. apply in_app_iff in H1. destruct H1 as [H1|[H1|[]]].
        - eapply Sep; eauto. now right.
        - injection H1 as <- <-. destruct (K k'' b' (or_intror H2)). lia. }
      exists h', z'. split; [exact E'|]. split; auto. split; auto. cbn in L, X, Y. split; [|split; [|split; [|split; [|split; [|split; [|split]]]]]]; auto; try lia.
      * intros k'. rewrite S. cbn [lookup]. destruct (Nat.eqb_spec k k') as [<-|Hk].
        { rewrite NL. unfold asem. rewrite lookup_app, E. cbn. rewrite Nat.eqb_refl, fup_same, Hfresh. now rewrite Lb. }
        assert (Hz : asem size h1 (z ++ [(k, narr h)]) k' = asem size h z k').
        { unfold asem. rewrite lookup_app. destruct (lookup k' z) as [a'|] eqn:E''.
          - apply fup_other. apply lookup_In in E''. apply Kz in E''. lia.
          - cbn. now rewrite (proj2 (Nat.eqb_neq k k')). }
        rewrite Hz. destruct (lookup k' items) as [b'|] eqn:E''; auto. f_equal. apply fup_other.
        apply lookup_In in E''. destruct (K k' b' (or_intror E'')). lia.
      * intros a' H1 H2. rewrite U; [cbn; apply fup_other; lia|cbn; lia|]. rewrite map_app, in_app_iff. cbn. intros [H|[H|[]]]; auto. lia.
      * intros a' H. apply F in H. cbn in H. rewrite map_app, in_app_iff in H. cbn in H. destruct H as [[H|[H|[]]]|H]; auto; right; lia.
      * intros k'. rewrite KK, map_app, in_app_iff. cbn. tauto.
      * intros k' a' H. apply LL. rewrite lookup_app, H. reflexivity.
Qed.

(** __add__, __sub__ *)
Lemma binop_spec h x y : ok size h x -> ok size h y ->
  exists h' d, binop op fresh h x y = (h', inl d) /\ ok size h' d /\ extends h h' /\ new_in h h' d /\
  (forall k, sem size h' d k = vmap2 op (sem size h x k) (sem size h y k)) /\
  (forall k, In k (map fst (dict h' d)) <-> In k (map fst (dict h x)) \/ In k (map fst (dict h y))).
Proof using Hfresh Hop0.
  intros (Dx & Ox) (Dy & Oy). unfold binop. destruct (copy_items h (dict h x)) as [h1 z] eqn:E.
  destruct (copy_spec size _ _ _ _ E Ox) as (O1 & M1 & S1 & N1 & F1 & L1 & U1 & X1 & Y1).
  assert (Oy1 : ok_items size h1 (dict h y)).
  { destruct Oy as [Ny Ky]. split; auto. intros k a H. destruct (Ky k a H). rewrite U1 by auto. split; auto. lia. }
  destruct (accum_spec _ h1 z Oy1 O1 N1) as (h2 & z2 & E2 & O2 & N2 & S2 & U2 & F2 & L2 & X2 & Y2 & K2 & _).
  { intros k a k' b H1 H2 ->. apply in_map with (f := snd) in H1. apply F1 in H1. apply Oy in H2. cbn in H1. lia. }
  rewrite E2. cbn [new_dict]. eexists; eexists. split; [reflexivity|].
  assert (D : forall h3, h3 = mkHeap (arr h2) (narr h2) (fup (dict h2) (ndict h2) z2) (S (ndict h2)) -> dict h3 (ndict h2) = z2).
  { intros h3 ->. apply fup_same. }
  split; [|split; [|split; [|split]]].
  - split; [cbn; lia|]. cbn. rewrite fup_same. exact O2.
  - split; [cbn; lia|]. split; [cbn; lia|]. cbn. split.
    + intros a H. rewrite U2; [auto|lia|]. intros H'. apply F1 in H'. lia.
    + intros d H. rewrite fup_other, X2, X1; auto. lia.
  - unfold new_in, arrays. cbn. rewrite fup_same. split; [lia|]. split; auto. intros a H. apply F2 in H. destruct H as [H|H]; [apply F1 in H; lia|lia].
  - intros k. unfold sem. cbn. rewrite fup_same.
    change (asem size _ z2 k) with (asem size h2 z2 k). rewrite S2, S1. unfold asem at 4.
    destruct (lookup k (dict h y)) as [b|] eqn:Eb.
    + f_equal. apply lookup_In in Eb. apply U1. now apply Oy in Eb.
    + symmetry. apply vmap2_zeros_r. now apply asem_length.
  - intros k. cbn. rewrite fup_same, K2, M1. reflexivity.
Qed.

(** __iadd__, __isub__ *)
Lemma inplace_spec h x y : ok size h x -> ok size h y -> NoDup (arrays h x) ->
  (forall k a k' b, In (k, a) (dict h x) -> In (k', b) (dict h y) -> a = b -> k = k') ->
  exists h', inplace op fresh h x y = (h', None) /\ ok size h' x /\ NoDup (arrays h' x) /\
  (forall k, sem size h' x k = vmap2 op (sem size h x k) (sem size h y k)) /\
  (forall a, a < narr h -> ~ In a (arrays h x) -> arr h' a = arr h a) /\
  (forall d, d <> x -> dict h' d = dict h d) /\ narr h <= narr h' /\ ndict h' = ndict h /\
  (forall a, In a (arrays h' x) -> In a (arrays h x) \/ narr h <= a).
Proof using Hfresh Hop0.
  intros (Dx & Ox) (Dy & Oy) N Sep. unfold inplace.
  destruct (accum_spec _ h (dict h x) Oy Ox N Sep) as (h2 & z2 & E2 & O2 & N2 & S2 & U2 & F2 & L2 & X2 & Y2 & K2 & _).
  rewrite E2. eexists. split; [reflexivity|]. unfold ok, arrays, sem. cbn. rewrite fup_same.
  split; [|split; [|split; [|split; [|split; [|split; [|split]]]]]]; auto; try lia.
  - split; [lia|exact O2].
  - intros k. change (asem size (set_dict h2 x z2) z2 k) with (asem size h2 z2 k). rewrite S2. unfold asem at 4.
    destruct (lookup k (dict h y)); auto. symmetry. apply vmap2_zeros_r. now apply asem_length.
  - intros d Hd. rewrite fup_other by auto. now rewrite X2.
Qed.
End Accum.

Lemma neg_fresh v : vneg v = vmap2 Rminus (zeros (length v)) v.
Proof. symmetry. now apply vsub_zeros_l. Qed.
Lemma id_fresh v : v = vmap2 Rplus (zeros (length v)) v.
Proof. symmetry. now apply vadd_zeros_l. Qed.

Lemma scale_items_spec c items : forall h, NoDup (map snd items) ->
  let h' := scale_items c h items in
  narr h' = narr h /\ dict h' = dict h /\ ndict h' = ndict h /\
  (forall a, In a (map snd items) -> arr h' a = vscale c (arr h a)) /\ (forall a, ~ In a (map snd items) -> arr h' a = arr h a).
Proof.
  induction items as [|[k a] items IH]; intros h N; cbn; [repeat split; auto; intros; contradiction|].
  cbn in N. inversion_clear N as [|? ? N1 N2].
  destruct (IH (set_arr h a (map (fun v => (v * c)%R) (arr h a))) N2) as (A & B & C & D & E). cbn in A, B, C.
  repeat split; auto.
  - intros a' [<-|H].
    + rewrite E by auto. cbn. rewrite fup_same. apply map_ext. intros. ring.
    + rewrite D by auto. cbn. rewrite fup_other; auto. intros ->; auto.
  - intros a' H. rewrite E by auto. cbn. apply fup_other. auto.
Qed.

(** * C22 *)
Theorem C22_add size h x y : ok size h x -> ok size h y ->
  exists h' d, d_add h x y = (h', inl d) /\ ok size h' d /\ extends h h' /\ new_in h h' d /\
  (forall k, sem size h' d k = vadd (sem size h x k) (sem size h y k)).
Proof.
  intros Hx Hy. destruct (binop_spec size Rplus (fun v => v) id_fresh Rplus_0_r h x y Hx Hy) as (h' & d & H & A & B & C & D & _).
  exists h', d. auto.
Qed.
Theorem C22_sub size h x y : ok size h x -> ok size h y ->
  exists h' d, d_sub h x y = (h', inl d) /\ ok size h' d /\ extends h h' /\ new_in h h' d /\
  (forall k, sem size h' d k = vsub (sem size h x k) (sem size h y k)).
Proof.
  intros Hx Hy. destruct (binop_spec size Rminus vneg neg_fresh Rminus_0_r h x y Hx Hy) as (h' & d & H & A & B & C & D & _).
  exists h', d. auto.
Qed.
Theorem C22_mul size c h x : ok size h x ->
  exists h' d, d_mul c h x = (h', d) /\ ok size h' d /\ extends h h' /\ new_in h h' d /\
  (forall k, sem size h' d k = vscale c (sem size h x k)).
Proof.
  intros (Dx & Ox). unfold d_mul. destruct (copy_items h (dict h x)) as [h1 z] eqn:E.
  destruct (copy_spec size _ _ _ _ E Ox) as (O1 & M1 & S1 & N1 & F1 & L1 & U1 & X1 & Y1).
  destruct (scale_items_spec c z h1 N1) as (A & B & C & D & F). set (h2 := scale_items c h1 z) in *.
  cbn [new_dict]. eexists; eexists. split; [reflexivity|].
  split; [|split; [|split]].
  - split; [cbn; lia|]. cbn. rewrite fup_same. destruct O1 as [O1 K1]. split; auto. cbn.
    intros k a H. destruct (K1 k a H). rewrite A. split; auto.
    apply in_map with (f := snd) in H. rewrite D by auto. now rewrite vscale_length.
  - split; [cbn; lia|]. split; [cbn; lia|]. cbn. split.
    + intros a H. rewrite F; auto. intros H'. apply F1 in H'. lia.
    + intros d H. rewrite fup_other, B, X1; auto. lia.
  - unfold new_in, arrays. cbn. rewrite fup_same. split; [lia|]. split; auto. intros a H. apply F1 in H. lia.
  - intros k. unfold sem. cbn. rewrite fup_same. rewrite <- S1. unfold asem. cbn.
    destruct (lookup k z) as [a|] eqn:Ea; [|now rewrite vscale_zeros].
    apply D. apply lookup_In in Ea. now apply in_map with (f := snd) in Ea.
Qed.

(** d += e and d -= e: [d] takes the sum / difference, arrays [d] does not own are untouched.  The
    arrays of [d] must be pairwise different objects and not be stored in [e] under another key *)
Definition may_update (h : heap) (x y : nat) : Prop :=
  NoDup (arrays h x) /\ forall k a k' b, In (k, a) (dict h x) -> In (k', b) (dict h y) -> a = b -> k = k'.
Theorem C22_iadd size h x y : ok size h x -> ok size h y -> may_update h x y ->
  exists h', d_iadd h x y = (h', None) /\ ok size h' x /\
  (forall k, sem size h' x k = vadd (sem size h x k) (sem size h y k)) /\
  (forall d, d <> x -> ok size h d -> (forall a, In a (arrays h d) -> ~ In a (arrays h x)) ->
     ok size h' d /\ forall k, sem size h' d k = sem size h d k).
Proof.
  intros Hx Hy [N S]. destruct (inplace_spec size Rplus (fun v => v) id_fresh Rplus_0_r h x y Hx Hy N S) as (h' & H & A & _ & B & C & D & L & L' & _).
  exists h'. split; auto. split; auto. split; auto. intros d Hd (Od & Nd & Kd) Sep. unfold ok, sem, ok_items. rewrite D by auto.
  assert (U : forall k a, In (k, a) (dict h d) -> arr h' a = arr h a).
  { intros k a I. apply C; [now apply Kd in I|]. apply Sep. now apply in_map with (f := snd) in I. }
  split; [split; [lia|split; auto]|].
  - intros k a I. rewrite (U k a I). destruct (Kd k a I). split; auto. lia.
  - intros k. unfold asem. destruct (lookup k (dict h d)) eqn:E; auto. apply lookup_In in E. eauto.
Qed.
Theorem C22_isub size h x y : ok size h x -> ok size h y -> may_update h x y ->
  exists h', d_isub h x y = (h', None) /\ ok size h' x /\
  (forall k, sem size h' x k = vsub (sem size h x k) (sem size h y k)) /\
  (forall d, d <> x -> ok size h d -> (forall a, In a (arrays h d) -> ~ In a (arrays h x)) ->
     ok size h' d /\ forall k, sem size h' d k = sem size h d k).
Proof.
  intros Hx Hy [N S]. destruct (inplace_spec size Rminus vneg neg_fresh Rminus_0_r h x y Hx Hy N S) as (h' & H & A & _ & B & C & D & L & L' & _).
  exists h'. split; auto. split; auto. split; auto. intros d Hd (Od & Nd & Kd) Sep. unfold ok, sem, ok_items. rewrite D by auto.
  assert (U : forall k a, In (k, a) (dict h d) -> arr h' a = arr h a).
  { intros k a I. apply C; [now apply Kd in I|]. apply Sep. now apply in_map with (f := snd) in I. }
  split; [split; [lia|split; auto]|].
  - intros k a I. rewrite (U k a I). destruct (Kd k a I). split; auto. lia.
  - intros k. unfold asem. destruct (lookup k (dict h d)) eqn:E; auto. apply lookup_In in E. eauto.
Qed.
(** the results of +, - and * may always be updated in place, also with themselves (d += d) *)
Theorem C22_results_may_be_updated h h' d y : new_in h h' d -> NoDup (map fst (dict h' d)) ->
  (y = d \/ forall a, In a (arrays h' y) -> ~ In a (arrays h' d)) -> may_update h' d y.
Proof.
  intros (_ & _ & N) K Hy. split; auto. intros k a k' b H1 H2 <-. destruct Hy as [->|Hy].
  - clear K. unfold arrays in N. induction (dict h' d) as [|[p q] z IHz]; cbn in *; [tauto|]. inversion_clear N as [|? ? M1 M2].
    destruct H1 as [P|P], H2 as [Q|Q].
    + congruence. + injection P as -> ->. exfalso. apply M1. now apply in_map with (f := snd) in Q.
    + injection Q as -> ->. exfalso. apply M1. now apply in_map with (f := snd) in P. + auto.
  - exfalso. apply (Hy a); [now apply in_map with (f := snd) in H2|now apply in_map with (f := snd) in H1].
Qed.

(** vector space laws, as equalities of what the resulting Derivatives say about every object *)
Theorem C22_laws size h x y z (c c' : R) : ok size h x -> ok size h y -> ok size h z ->
  let plus h a b k := match d_add h a b with (h', inl d) => sem size h' d k | _ => [] end in
  let chain f g (k : nat) : list R := match f with (h', inl d) => g h' d k | _ => [] end in
  forall k,
  plus h x y k = plus h y x k /\
  chain (d_add h x y) (fun h' d k => plus h' d z k) k = chain (d_add h y z) (fun h' d k => plus h' x d k) k /\
  chain (d_add h x y) (fun h' d k => let (h2, d2) := d_mul c h' d in sem size h2 d2 k) k =
  (let (h1, cx) := d_mul c h x in let (h2, cy) := d_mul c h1 y in plus h2 cx cy k) /\
  (let (h1, cx) := d_mul c h x in let (h2, cx') := d_mul c' h1 x in plus h2 cx cx' k) =
  (let (h1, s) := d_mul (c + c') h x in sem size h1 s k) /\
  chain (d_sub h x y) (sem size) k = (let (h1, ny) := d_mul (-1) h y in plus h1 x ny k) /\
  chain (d_sub h x x) (sem size) k = zeros (size k).
Proof.
  intros Hx Hy Hz plus chain k.
  assert (PL : forall h a b, ok size h a -> ok size h b -> forall k, plus h a b k = vadd (sem size h a k) (sem size h b k)).
  { intros h0 a b Ha Hb k0. unfold plus. destruct (C22_add size h0 a b Ha Hb) as (h' & d & -> & _ & _ & _ & S). apply S. }
  unfold chain.
  destruct (C22_add size h x y Hx Hy) as (h1 & d1 & E1 & O1 & X1 & _ & S1).
  destruct (C22_add size h y z Hy Hz) as (h2 & d2 & E2 & O2 & X2 & _ & S2).
  rewrite E1, E2.
  destruct (extends_ok size h h1 z X1 Hz) as [Hz1 Sz1]. destruct (extends_ok size h h2 x X2 Hx) as [Hx2 Sx2].
  split; [|split; [|split; [|split; [|split]]]].
  - rewrite !PL by auto. apply vadd_comm.
  - rewrite !PL, S1, S2, Sz1, Sx2 by auto. symmetry. apply vadd_assoc.
  - destruct (C22_mul size c h1 d1 O1) as (h3 & d3 & -> & _ & _ & _ & ->). rewrite S1.
    destruct (C22_mul size c h x Hx) as (h4 & d4 & -> & O4 & X4 & _ & S4).
    destruct (extends_ok size h h4 y X4 Hy) as [Hy4 Sy4].
    destruct (C22_mul size c h4 y Hy4) as (h5 & d5 & -> & O5 & X5 & _ & S5).
    destruct (extends_ok size h4 h5 d4 X5 O4) as [O45 S45].
    rewrite PL, S45, S4, S5, Sy4 by auto. apply vscale_vadd.
  - destruct (C22_mul size c h x Hx) as (h4 & d4 & -> & O4 & X4 & _ & S4).
    destruct (extends_ok size h h4 x X4 Hx) as [Hx4 Sx4].
    destruct (C22_mul size c' h4 x Hx4) as (h5 & d5 & -> & O5 & X5 & _ & S5).
    destruct (extends_ok size h4 h5 d4 X5 O4) as [O45 S45].
    destruct (C22_mul size (c + c') h x Hx) as (h6 & d6 & -> & _ & _ & _ & ->).
    rewrite PL, S45, S4, S5, Sx4 by auto. symmetry. apply vscale_add.
  - destruct (C22_sub size h x y Hx Hy) as (h3 & d3 & -> & _ & _ & _ & ->).
    destruct (C22_mul size (-1) h y Hy) as (h4 & d4 & -> & O4 & X4 & _ & S4).
    destruct (extends_ok size h h4 x X4 Hx) as [Hx4 Sx4].
    rewrite PL, S4, Sx4 by auto. apply vsub_as_vadd.
  - destruct (C22_sub size h x x Hx Hx) as (h3 & d3 & -> & _ & _ & _ & ->). rewrite vsub_diag. f_equal.
    apply asem_length. apply Hx.
Qed.

(** array arithmetic underneath: lengths must agree, or the right operand has length one and is added to every
    entry; anything else is an error *)
Theorem C22_inplace_arrays : forall (op : R -> R -> R) (a b : list R),
  match np_inplace op a b with
  | Some v => length v = length a /\ (length b = length a \/ length b = 1) /\
      forall i x, nth_error a i = Some x -> exists y, nth_error b (if length b =? length a then i else 0) = Some y /\ nth_error v i = Some (op x y)
  | None => length b <> length a /\ length b <> 1
  end.
Proof.
  intros op a b. unfold np_inplace. destruct (Nat.eqb_spec (length b) (length a)) as [E|E].
  - split; [rewrite vmap2_length; lia|]. split; auto. intros i x Hx.
    destruct (nth_error b i) as [y|] eqn:Hy.
    + exists y. split; auto. now rewrite vmap2_nth_error, Hx, Hy.
    + apply nth_error_None in Hy. assert (i < length a) by (apply nth_error_Some; congruence). lia.
  - destruct b as [|y [|z b]]; cbn in *; try (split; lia). split; [now rewrite map_length|]. split; auto. intros i x Hx. exists y. split; auto. now rewrite nth_error_map, Hx.
Qed.
(** ** Concrete heap: x = {0: [1,2], 1: [3]}, y = {1: [5], 2: [7]} *)
Definition ex_size (k : nat) : nat := match k with 0 => 2 | _ => 1 end.
Definition ex_h : heap :=
  mkHeap (fun a => match a with 0 => [1; 2] | 1 => [3] | 2 => [5] | _ => [7] end%R) 4
         (fun d => match d with 0 => [(0, 0); (1, 1)] | 1 => [(1, 2); (2, 3)] | 2 => [(1, 1); (2, 1)] | _ => [] end) 3.
Lemma ex_ok d : d < 3 -> ok ex_size ex_h d.
Proof.
  intros H. assert (d = 0 \/ d = 1 \/ d = 2) as [->|[->| ->]] by lia; (split; [cbn; lia|]); (split; [cbn; repeat constructor; cbn; intuition congruence|]);
  cbn; intros k a I; intuition (match goal with E : (_, _) = (_, _) |- _ => injection E as <- <- end; cbn; auto with arith; lia).
Qed.
Example C22_nonvacuous : may_update ex_h 0 1 /\ may_update ex_h 0 0 /\
  exists h', d_iadd ex_h 0 1 = (h', None) /\ sem ex_size h' 0 0 = [1; 2]%R /\ sem ex_size h' 0 1 = [(3 + 5)%R] /\ sem ex_size h' 0 2 = [7%R].
Proof.
  split; [|split].
  - split; [cbn; repeat constructor; cbn; intuition lia|]. cbn. intros k a k' b H1 H2 <-. exfalso.
    intuition (repeat match goal with E : (_, _) = (_, _) |- _ => injection E as ? ? end; lia).
  - split; [cbn; repeat constructor; cbn; intuition lia|]. cbn. intros k a k' b H1 H2 <-.
    intuition (repeat match goal with E : (_, _) = (_, _) |- _ => injection E as ? ? end; lia).
  - eexists. split; [reflexivity|]. repeat split; reflexivity.
Qed.
(** the hypothesis of C22_iadd is needed: Derivative({a: v, b: v}) built from one array, then += *)
Theorem C22_iadd_shared_array_refuted : exists h' , d_iadd ex_h 2 1 = (h', None) /\
  sem ex_size ex_h 2 1 = [3%R] /\ sem ex_size ex_h 2 2 = [3%R] /\ sem ex_size ex_h 1 1 = [5%R] /\ sem ex_size ex_h 1 2 = [7%R] /\
  sem ex_size h' 2 1 = [(3 + 5 + 7)%R] /\ sem ex_size h' 2 1 <> vadd (sem ex_size ex_h 2 1) (sem ex_size ex_h 1 1).
Proof.
  eexists. split; [reflexivity|]. cbn. repeat split; auto. unfold vadd. cbn. intros H. injection H. lra.
Qed.
