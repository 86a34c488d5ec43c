(** C46 and fixed_range: change of resolution of SurfaceRZFourier. *)
From Coq Require Import Reals Lra Lia ZArith.
From Verif Require Import ListAux VecAux DofsModel SurfModel SurfProps.
Open Scope nat_scope.

Lemma fold_replace {A} (key : A -> nat) (val : A -> R) l : forall a q,
  q < length a -> (forall x y, In x l -> In y l -> key x = key y -> val x = val y) ->
  (forall x, In x l -> key x = q -> nth q (fold_left (fun a x => replace a (key x) (val x)) l a) 0%R = val x) /\
  ((forall x, In x l -> key x <> q) -> nth q (fold_left (fun a x => replace a (key x) (val x)) l a) 0%R = nth q a 0%R).
Proof.
  induction l as [|x l IH]; intros a q Hq C; cbn [fold_left].
  - split; [intros x []|auto].
  - destruct (IH (replace a (key x) (val x)) q ltac:(rewrite replace_length; auto) ltac:(intros; apply C; auto; now right)) as [I1 I2]. split.
    + intros y [<-|Hy] E; [|apply I1; auto].
      destruct (in_dec Nat.eq_dec q (map key l)) as [HI|HI].
      * apply in_map_iff in HI as (z & Ez & Hz). rewrite (I1 z Hz Ez). apply C; [now right|now left|congruence].
      * rewrite I2; [|intros z Hz Ez; apply HI; rewrite <- Ez; now apply in_map]. rewrite replace_nth by auto. subst q. now rewrite Nat.eqb_refl.
    + intros N. rewrite I2 by (intros; apply N; now right). rewrite replace_nth by auto. destruct (Nat.eqb_spec q (key x)); auto. exfalso. apply (N x); auto. now left.
Qed.
Lemma fold_replace_length {A} (key : A -> nat) (val : A -> R) l : forall a, length (fold_left (fun a x => replace a (key x) (val x)) l a) = length a.
Proof. induction l as [|x l IH]; intros a; cbn; auto. now rewrite IH, replace_length. Qed.

Section Res.
Variables (s : surf) (mp nt : nat).
Let s' := change_resolution s mp nt.
Let mm := Nat.min mp (mpol s).
Let nn := Nat.min nt (ntor s).
Let key (mj : nat * nat) := fst mj * (2 * nt + 1) + (snd mj + nt - nn).
Let val k (mj : nat * nat) := nth (fst mj * width s + (snd mj + ntor s - nn)) (arr s k) 0%R.
Lemma copy_eq k : absent s k = false ->
  arr s' k = fold_left (fun a x => replace a (key x) (val k x)) (list_prod (seq 0 (mm + 1)) (seq 0 (2 * nn + 1))) (repeat 0%R ((mp + 1) * (2 * nt + 1))).
Proof.
  intros A. unfold s', change_resolution. cbn [arr]. rewrite A. cbn [arr allocate]. fold mm nn.
  generalize (repeat 0%R ((mp + 1) * (2 * nt + 1))). induction (list_prod (seq 0 (mm + 1)) (seq 0 (2 * nn + 1))) as [|[m j] l IH]; intros a; cbn [fold_left]; auto.
Qed.
Lemma res_wf : wf s'.
Proof.
  intros k. destruct (absent s k) eqn:A.
  - unfold s', change_resolution. cbn [arr]. rewrite A. cbn [arr allocate]. rewrite repeat_length. reflexivity.
  - rewrite copy_eq, fold_replace_length, repeat_length by auto. reflexivity.
Qed.
Lemma key_inj x y : In x (list_prod (seq 0 (mm + 1)) (seq 0 (2 * nn + 1))) -> In y (list_prod (seq 0 (mm + 1)) (seq 0 (2 * nn + 1))) -> key x = key y -> x = y.
Proof.
  destruct x as [m j], y as [m' j']. rewrite !in_prod_iff, !in_seq. unfold key. cbn [fst snd]. intros Hx Hy E.
  assert (nn <= nt) by (unfold nn; lia).
  assert (m = m') by nia. subst. f_equal. lia.
Qed.
Theorem C46_coefficients k m n : in_range s' m n ->
  (absent s k = false -> in_range s m n -> coef s' k m n = coef s k m n) /\
  (absent s k = false -> ~ in_range s m n -> coef s' k m n = 0%R) /\
  (absent s k = true -> coef s' k m n = 0%R).
Proof.
  intros R'. assert (B := mn_at_back s' m n R'). destruct B as [L B].
  assert (MP : mpol s' = mp) by reflexivity. assert (NT : ntor s' = nt) by reflexivity. assert (WD : width s' = 2 * nt + 1) by reflexivity. assert (TT : total s' = (mp + 1) * (2 * nt + 1)) by reflexivity.
  unfold coef. rewrite NT, WD in *. set (q := m * (2 * nt + 1) + Z.to_nat (n + Z.of_nat nt)) in *. destruct R' as [Rm Rn]. rewrite MP in Rm. rewrite NT in Rn.
  split; [|split].
  - intros A [Im In']. rewrite copy_eq by auto. set (x := (m, Z.to_nat (n + Z.of_nat nn))).
    assert (HI : In x (list_prod (seq 0 (mm + 1)) (seq 0 (2 * nn + 1)))) by (apply in_prod; apply in_seq; unfold mm, nn; lia).
    destruct (fold_replace key (val k) (list_prod (seq 0 (mm + 1)) (seq 0 (2 * nn + 1))) (repeat 0%R ((mp + 1) * (2 * nt + 1))) q) as [F _].
    + rewrite repeat_length. lia.
    + intros a b Ha Hb E. now rewrite (key_inj a b Ha Hb E).
    + rewrite (F x HI); [|unfold key, x, q; cbn [fst snd]; unfold nn; lia]. unfold val, x. cbn [fst snd]. f_equal. unfold nn; lia.
  - intros A NI. rewrite copy_eq by auto.
    destruct (fold_replace key (val k) (list_prod (seq 0 (mm + 1)) (seq 0 (2 * nn + 1))) (repeat 0%R ((mp + 1) * (2 * nt + 1))) q) as [_ F].
    + rewrite repeat_length. lia.
    + intros a b Ha Hb E. now rewrite (key_inj a b Ha Hb E).
    + rewrite F; [apply nth_repeat|]. intros [m' j'] HI E. apply in_prod_iff in HI as [H1 H2]. apply in_seq in H1, H2. unfold key in E. cbn [fst snd] in E. apply NI.
      assert (nn <= nt) by (unfold nn; lia). assert (m' = m) by (unfold q in E; nia). subst m'. split; [unfold mm in *; lia|]. unfold q in E. unfold nn in *. lia.
  - intros A. unfold s', change_resolution. cbn [arr]. rewrite A. cbn [arr allocate]. apply nth_repeat.
Qed.
(** the new dofs, in the order of the new names: the old coefficient where there was one, else zero *)
Theorem C46_dofs : get_dofs s' = map (fun x => let '(k, m, n) := x in
   if ((m <=? mpol s)%nat && (- Z.of_nat (ntor s) <=? n)%Z && (n <=? Z.of_nat (ntor s))%Z)%bool then coef s k m n else 0%R) (make_names s').
Proof.
  rewrite C45_dofs_are_named_coefficients. apply map_ext_in. intros [[k m] n] HI. apply C45_names_exactly_the_dofs in HI as (R & S & _).
  destruct (C46_coefficients k m n R) as (A & B & C).
  assert (AB : absent s k = false) by (unfold absent; change (stellsym s) with (stellsym s'); destruct (stellsym s'); auto; destruct (S eq_refl) as [->| ->]; auto).
  destruct (_ && _ && _)%bool eqn:E.
  - rewrite !andb_true_iff, Nat.leb_le, !Z.leb_le in E. apply A; auto. unfold in_range. lia.
  - apply B; auto. intros [I1 I2]. apply not_true_iff_false in E. apply E. rewrite !andb_true_iff, Nat.leb_le, !Z.leb_le. lia.
Qed.
(** the DOFs object built at the end: everything free, without bounds, whatever was fixed before *)
Theorem C46_status_forgotten (enc : name -> nat) (ninf pinf : R) : (forall a b, enc a = enc b -> a = b) ->
  dofs_init ninf pinf (Some (get_dofs s')) (Some (map enc (make_names s'))) None None None =
  inl (mkDofs (get_dofs s') (repeat true (num_dofs s')) (repeat ninf (num_dofs s')) (repeat pinf (num_dofs s')) (map enc (make_names s'))).
Proof.
  intros I. destruct (C45_sizes s') as (L1 & L2 & _). unfold dofs_init.
  assert (D : has_dup (map enc (make_names s')) = false).
  { assert (N : NoDup (map enc (make_names s'))) by (apply FinFun.Injective_map_NoDup; [exact I|apply C45_names_distinct]).
    induction N as [|a l NI N IH]; cbn; auto. rewrite IH, orb_false_r. apply not_true_iff_false. rewrite existsb_exists. intros (b & Hb & E). apply Nat.eqb_eq in E. congruence. }
  rewrite D, L2, !repeat_length, map_length, L1, !Nat.eqb_refl. reflexivity.
Qed.
End Res.
(** enlarging and going back restores the surface *)
Theorem C46_grow_shrink s mp nt k m n : wf s -> mpol s <= mp -> ntor s <= nt -> absent s k = false -> in_range s m n ->
  coef (change_resolution (change_resolution s mp nt) (mpol s) (ntor s)) k m n = coef s k m n.
Proof.
  intros W Hm Hn A R. assert (R1 : in_range (change_resolution s mp nt) m n) by (unfold in_range in *; cbn; lia).
  destruct (C46_coefficients (change_resolution s mp nt) (mpol s) (ntor s) k m n) as (E & _); [exact R|]. rewrite E by auto.
  apply C46_coefficients; auto.
Qed.
Theorem C46_grow_shrink_dofs s mp nt : wf s -> mpol s <= mp -> ntor s <= nt ->
  get_dofs (change_resolution (change_resolution s mp nt) (mpol s) (ntor s)) = get_dofs s.
Proof.
  intros W Hm Hn. rewrite !C45_dofs_are_named_coefficients. change (make_names (change_resolution (change_resolution s mp nt) (mpol s) (ntor s))) with (make_names s).
  apply map_ext_in. intros [[k m] n] HI. apply C45_names_exactly_the_dofs in HI as (R & S & _). apply C46_grow_shrink; auto.
  unfold absent. destruct (stellsym s); auto. destruct (S eq_refl) as [->| ->]; auto.
Qed.
Lemma allocate_wf mp nt ss : wf (allocate mp nt ss).
Proof. intros k. cbn. now rewrite repeat_length. Qed.
Theorem C46_change_wf s mp nt : wf (change_resolution s mp nt).
Proof. apply res_wf. Qed.

(** ** fixed_range *)
Lemma zrange_In a b z : In z (zrange a b) <-> (a <= z < b)%Z.
Proof.
  unfold zrange. rewrite in_map_iff. split.
  - intros (i & <- & H). apply in_seq in H. lia.
  - intros H. exists (Z.to_nat (z - a)). split; [lia|]. apply in_seq. lia.
Qed.
Lemma fixed_names_In s mmin mmax nmin nmax k m n : In (k, m, n) (fixed_names s mmin mmax nmin nmax) <->
  (mmin <= m <= mmax /\ nmin <= n <= nmax /\ (m = 0 -> nmin < 0 -> 0 <= n))%Z /\ (stellsym s = true -> k = RC \/ k = ZS) /\ (k = ZS \/ k = RS -> (0 < m \/ n <> 0)%Z).
Proof.
  unfold fixed_names. rewrite in_flat_map. setoid_rewrite in_flat_map. split.
  - intros (m' & Hm & n' & Hn & H). apply zrange_In in Hm, Hn.
    assert (Q : m' = m /\ n' = n /\ (stellsym s = true -> k = RC \/ k = ZS) /\ (k = ZS \/ k = RS -> (0 < m \/ n <> 0)%Z)).
    { rewrite in_cons_iff || idtac. destruct H as [H|H]; [injection H as <- <- <-; repeat split; auto; intros [?|?]; discriminate|].
      apply in_app_iff in H as [H|H].
      - destruct ((0 <? m') || negb (n' =? 0))%Z eqn:E; [|destruct H]. destruct H as [H|[]]. injection H as <- <- <-.
        rewrite orb_true_iff, Z.ltb_lt, negb_true_iff, Z.eqb_neq in E. repeat split; auto.
      - destruct (stellsym s); [destruct H|]. destruct H as [H|H]; [injection H as <- <- <-; repeat split; auto; intros; try discriminate; intuition discriminate|].
        destruct ((0 <? m') || negb (n' =? 0))%Z eqn:E; [|destruct H]. destruct H as [H|[]]. injection H as <- <- <-.
        rewrite orb_true_iff, Z.ltb_lt, negb_true_iff, Z.eqb_neq in E. repeat split; auto; intros; discriminate. }
    destruct Q as (-> & -> & Q1 & Q2). split; [|auto]. destruct ((m =? 0) && (nmin <? 0))%Z eqn:E; [rewrite andb_true_iff, Z.eqb_eq, Z.ltb_lt in E|rewrite andb_false_iff, Z.eqb_neq, Z.ltb_ge in E]; lia.
  - intros ((Hm & Hn & H0) & S & Z). exists m. split; [apply zrange_In; lia|]. exists n. split.
    + apply zrange_In. destruct ((m =? 0) && (nmin <? 0))%Z eqn:E; [rewrite andb_true_iff, Z.eqb_eq, Z.ltb_lt in E|]; lia.
    + assert (E : k = ZS \/ k = RS -> ((0 <? m) || negb (n =? 0))%Z = true) by (intros K; rewrite orb_true_iff, Z.ltb_lt, negb_true_iff, Z.eqb_neq; auto).
      destruct k.
      * now left.
      * right. apply in_app_iff. right. destruct (stellsym s); [destruct (S eq_refl); discriminate|]. right. rewrite E by auto. now left.
      * right. apply in_app_iff. right. destruct (stellsym s); [destruct (S eq_refl); discriminate|]. now left.
      * right. apply in_app_iff. left. rewrite E by auto. now left.
Qed.
(** for a range inside the resolution, the dofs fixed are exactly those with m and n in the range, and every name exists *)
Theorem C46_fixed_range s mmin mmax nmin nmax : (0 <= mmin)%Z -> (mmax <= Z.of_nat (mpol s))%Z -> (- Z.of_nat (ntor s) <= nmin)%Z -> (nmax <= Z.of_nat (ntor s))%Z ->
  (forall k m n, In (k, Z.of_nat m, n) (fixed_names s mmin mmax nmin nmax) <-> In (k, m, n) (make_names s) /\ (mmin <= Z.of_nat m <= mmax)%Z /\ (nmin <= n <= nmax)%Z) /\
  forall k z n, In (k, z, n) (fixed_names s mmin mmax nmin nmax) -> exists m, z = Z.of_nat m.
Proof.
  intros H1 H2 H3 H4. split.
  - intros k m n. rewrite fixed_names_In, C45_names_exactly_the_dofs. unfold is_dof, in_range. split.
    + intros ((Hm & Hn & H0) & S & Z). repeat split; auto; try lia. intros ->. destruct k.
      * destruct (Z_lt_le_dec nmin 0); [apply H0; auto|lia].
      * assert (0 < Z.of_nat 0 \/ n <> 0)%Z by (apply Z; auto). destruct (Z_lt_le_dec nmin 0); [specialize (H0 eq_refl l); lia|lia].
      * destruct (Z_lt_le_dec nmin 0); [apply H0; auto|lia].
      * assert (0 < Z.of_nat 0 \/ n <> 0)%Z by (apply Z; auto). destruct (Z_lt_le_dec nmin 0); [specialize (H0 eq_refl l); lia|lia].
    + intros (((Hm & Hn) & S & F) & Rm & Rn). split; [|split; auto].
      * split; [lia|]. split; [lia|]. intros E _. assert (m = 0) by lia. specialize (F H). destruct k; lia.
      * intros K. destruct (Nat.eq_dec m 0) as [->|]; [|lia]. specialize (F eq_refl). destruct K as [->| ->]; lia.
  - intros k z n HI. apply fixed_names_In in HI as ((Hm & _) & _). exists (Z.to_nat z). lia.
Qed.
(** hypotheses are met: a surface with a non-zero hidden entry, enlarged *)
Example C46_case : exists s, wf s /\ stellsym s = true /\ get_coef s RC 0 (-1) = Val 7 /\ get_dofs s = repeat 0%R (num_dofs s) /\
  get_coef (change_resolution s 3 2) RC 0 (-1) = Val 7.
Proof.
  set (s0 := allocate 1 1 true).
  assert (G : get_coef (fst (set_coef s0 RC 0 (-1) 7)) RC (Z.of_nat 0) (-1) = Val 7 /\ get_dofs (fst (set_coef s0 RC 0 (-1) 7)) = get_dofs s0).
  { apply (C45_hidden_coefficients s0 RC 0 (-1) 7 (allocate_wf _ _ _) eq_refl eq_refl). intros (_ & _ & H). specialize (H eq_refl). cbn in H. lia. }
  destruct (set_coef_arr s0 RC 0 (-1) 7 (allocate_wf _ _ _) eq_refl eq_refl) as (M1 & M2 & M3 & W & _).
  revert G M1 M2 M3 W. generalize (fst (set_coef s0 RC 0 (-1) 7)). intros s [G E] M1 M2 M3 W.
  change (mpol s0) with 1 in M1. change (ntor s0) with 1 in M2. change (stellsym s0) with true in M3.
  exists s. split; [exact W|]. split; [exact M3|]. split; [exact G|]. split.
  - rewrite E. unfold num_dofs. rewrite M1, M2, M3. reflexivity.
  - change 0%Z with (Z.of_nat 0). rewrite C45_get_is_coefficient; [|unfold absent; cbn; now rewrite M3|reflexivity]. f_equal.
    destruct (C46_coefficients s 3 2 RC 0 (-1)%Z) as (C & _); [cbn; unfold in_range; cbn; lia|]. rewrite C; [|unfold absent; now rewrite M3|unfold in_range; rewrite M1, M2; cbn; lia].
    rewrite <- C45_get_is_coefficient in * || idtac. assert (V : get_coef s RC (Z.of_nat 0) (-1) = Val (coef s RC 0 (-1))).
    { apply C45_get_is_coefficient; [unfold absent; now rewrite M3|]. unfold valid_mn. rewrite M1, M2. reflexivity. }
    rewrite G in V. now injection V.
Qed.
