(** C97: profiles have the documented values, [dfds] is the derivative of [f], and what
    ProfileSpec returns at every argument. *)
From Coq Require Import Reals List ZArith Lia Lra.
Import ListNotations.
From Verif Require Import VecAux ProfileModel BSDeriv.
Open Scope R_scope.

(** * Specification *)
(** sum_{i<n} f i *)
Fixpoint Sum (n : nat) (f : nat -> R) : R := match n with O => 0 | S k => Sum k f + f k end.

(** the mathematical function a profile stands for: sum_i c_i s^i; k * base; the spline;
    sum_j f_{2j} * f_{2j+1} over the consecutive pairs *)
Fixpoint value (p : profile) (s : R) {struct p} : R :=
  match p with
  | PPolynomial c => Sum (length c) (fun i => nth i c 0 * s ^ i)
  | PScaled b k => k * value b s
  | PSpline v _ => v s
  | PPressure ps => Sum (length ps / 2) (fun j => nth (2 * j) (map (fun q => value q s) ps) 0 * nth (2 * j + 1) (map (fun q => value q s) ps) 0)
  end.

(** profiles a program can build: polynomials with at least one coefficient, splines whose scipy
    derivative is the derivative, and pressures accepted by the constructor *)
Inductive built : profile -> Prop :=
| b_poly c : c <> [] -> built (PPolynomial c)
| b_scaled b k : built b -> built (PScaled b k)
| b_spline v d : (forall s, derivable_pt_lim v s (d s)) -> built (PSpline v d)
| b_press args p : new_pressure args = Some p -> (forall q, In q args -> built q) -> built p.

(** * Proofs *)
Lemma built_poly c : built (PPolynomial c) -> c <> [].
Proof.
  inversion 1 as [c' H1|?|?|args p E H1]; subst; auto. unfold new_pressure in E.
  destruct (Nat.eqb (length args) 0); try discriminate. destruct (Nat.eqb (length args mod 2) 1); discriminate.
Qed.
Lemma built_scaled b k : built (PScaled b k) -> built b.
Proof.
  inversion 1 as [|b' k' H1|?|args p E H1]; subst; auto. unfold new_pressure in E.
  destruct (Nat.eqb (length args) 0); try discriminate. destruct (Nat.eqb (length args mod 2) 1); discriminate.
Qed.
Lemma built_spline v d : built (PSpline v d) -> forall s, D v s (d s).
Proof.
  inversion 1 as [|?|v' d' H1|args p E H1]; subst; auto. unfold new_pressure in E.
  destruct (Nat.eqb (length args) 0); try discriminate. destruct (Nat.eqb (length args mod 2) 1); discriminate.
Qed.
Lemma built_press ps : built (PPressure ps) -> (forall q, In q ps -> built q) /\ (length ps mod 2 = 0)%nat /\ ps <> [].
Proof.
  inversion 1 as [|?|?|args p E H1]; subst; auto. unfold new_pressure in E.
  destruct (Nat.eqb_spec (length args) 0); try discriminate. destruct (Nat.eqb_spec (length args mod 2) 1); try discriminate.
  injection E as <-. split; auto. split.
  - pose proof (Nat.mod_upper_bound (length args) 2). lia.
  - intros ->. cbn in *; lia.
Qed.

Lemma profile_ind' (P : profile -> Prop) :
  (forall c, P (PPolynomial c)) -> (forall b k, P b -> P (PScaled b k)) -> (forall v d, P (PSpline v d)) ->
  (forall ps, (forall q, In q ps -> P q) -> P (PPressure ps)) -> forall p, P p.
Proof.
  intros H1 H2 H3 H4. fix IH 1. intros [c|b k|v d|ps]; [apply H1 | apply H2; apply IH | apply H3 |].
  apply H4. induction ps as [|a l IHl]; intros q HQ; [destruct HQ|].
  destruct HQ as [<- | HQ]; [apply IH | apply IHl; exact HQ].
Qed.

Lemma Sum_ext n f g : (forall i, (i < n)%nat -> f i = g i) -> Sum n f = Sum n g.
Proof. induction n; intros H; cbn; auto. rewrite IHn by (intros; apply H; lia). rewrite H by lia. reflexivity. Qed.
Lemma Sum_first n f : Sum (S n) f = f O + Sum n (fun i => f (S i)).
Proof. induction n. - cbn; ring. - change (Sum (S (S n)) f) with (Sum (S n) f + f (S n)). rewrite IHn. cbn. ring. Qed.
Lemma Sum_scal n f k : Sum n (fun i => k * f i) = k * Sum n f.
Proof. induction n; cbn; [ring|]. rewrite IHn. ring. Qed.
Lemma Sum_D n f f' s : (forall i, (i < n)%nat -> D (f i) s (f' i)) -> D (fun t => Sum n (fun i => f i t)) s (Sum n f').
Proof.
  induction n; intros H; cbn.
  - apply D_const.
  - apply D_add; [apply IHn; intros; apply H; lia | apply H; lia].
Qed.

Lemma horner x r : forall c0, fold_left (fun acc ci => ci + acc * x) r c0 = Sum (length r) (fun i => nth i (rev r) 0 * x ^ i) + c0 * x ^ (length r).
Proof.
  induction r as [|a r IH]; intros c0; cbn [fold_left length]; [cbn; ring|].
  rewrite IH. cbn [rev Sum].
  rewrite app_nth2 by (rewrite rev_length; lia). rewrite rev_length, Nat.sub_diag. cbn [nth].
  rewrite (Sum_ext (length r) (fun i => nth i (rev r ++ [a]) 0 * x ^ i) (fun i => nth i (rev r) 0 * x ^ i)).
  - cbn [pow]. ring.
  - intros i Hi. rewrite app_nth1 by (rewrite rev_length; lia). reflexivity.
Qed.

Lemma polyval_sum x c : c <> [] -> polyval x c = Some (Sum (length c) (fun i => nth i c 0 * x ^ i)).
Proof.
  intros H. unfold polyval. destruct (rev c) as [|c0 r] eqn:E.
  - apply (f_equal (@rev R)) in E. rewrite rev_involutive in E. cbn in E. contradiction.
  - f_equal. rewrite horner. apply (f_equal (@rev R)) in E. rewrite rev_involutive in E. cbn in E. subst c.
    rewrite app_length, rev_length. cbn [length]. rewrite Nat.add_1_r. cbn [Sum].
    rewrite app_nth2 by (rewrite rev_length; lia). rewrite rev_length, Nat.sub_diag. cbn [nth]. f_equal.
    apply Sum_ext. intros i Hi. rewrite app_nth1 by (rewrite rev_length; lia). reflexivity.
Qed.

Lemma polyder_sum x c : c <> [] -> polyval x (polyder c) = Some (Sum (length c) (fun i => nth i c 0 * (INR i * x ^ (i - 1)))).
Proof.
  destruct c as [|a [|b r]]; intros H; [contradiction| |].
  - cbn. f_equal. ring.
  - set (c := a :: b :: r). assert (E : polyder c = map (fun j => INR j * nth j c 0) (seq 1 (length c - 1))) by reflexivity.
    rewrite E. rewrite polyval_sum by (cbn; discriminate).
    rewrite map_length, seq_length. f_equal.
    replace (Sum (length c) (fun i => nth i c 0 * (INR i * x ^ (i - 1)))) with (Sum (S (length c - 1)) (fun i => nth i c 0 * (INR i * x ^ (i - 1)))) by reflexivity.
    rewrite Sum_first. change (INR 0) with 0. rewrite Rmult_0_l, Rmult_0_r, Rplus_0_l.
    apply Sum_ext. intros i Hi.
    rewrite (nth_indep _ 0 ((fun j => INR j * nth j c 0) O)) by (rewrite map_length, seq_length; exact Hi).
    rewrite (map_nth (fun j => INR j * nth j c 0)), seq_nth by exact Hi.
    replace (S i - 1)%nat with i by lia. replace (1 + i)%nat with (S i) by lia. ring.
Qed.

Lemma D_power i s : D (fun t => t ^ i) s (INR i * s ^ (i - 1)).
Proof. replace (i - 1)%nat with (pred i) by lia. apply derivable_pt_lim_pow. Qed.

(** one loop over pairs, for any term *)
Definition ploop (term : profile -> profile -> option R) :=
  fix loop (total : option R) (l : list profile) : option R :=
    match l with
    | a :: l1 => match l1 with b :: r => loop (omap2 Rplus total (term a b)) r | [] => total end
    | [] => total
    end.

Lemma half_SS n : (S (S n) / 2 = S (n / 2))%nat.
Proof. replace (S (S n)) with (n + 1 * 2)%nat by lia. rewrite Nat.div_add by lia. lia. Qed.

Lemma ploop_sum (term : profile -> profile -> option R) (g h : profile -> R) (op : nat -> R) k : forall ps,
  (length ps <= k)%nat ->
  (forall j, (j < length ps / 2)%nat -> term (nth (2 * j) ps (PSpline (fun _ => 0) (fun _ => 0))) (nth (2 * j + 1) ps (PSpline (fun _ => 0) (fun _ => 0))) = Some (op j)) ->
  forall t, ploop term (Some t) ps = Some (t + Sum (length ps / 2) op).
Proof.
  revert op. induction k as [|k IH]; intros op ps L H t.
  - destruct ps; [|cbn in L; lia]. cbn. f_equal; ring.
  - destruct ps as [|a [|b r]]; [cbn; f_equal; ring | cbn; f_equal; ring |].
    change (length (a :: b :: r)) with (S (S (length r))) in *. rewrite half_SS in *.
    pose proof (H O ltac:(lia)) as H0. cbn [Nat.mul Nat.add nth] in H0. cbn [ploop]. rewrite H0. cbn [omap2].
    change ((fix loop (total : option R) (l : list profile) {struct l} : option R := match l with [] => total | a0 :: l1 => match l1 with [] => total | b0 :: r0 => loop (omap2 Rplus total (term a0 b0)) r0 end end)) with (ploop term).
    specialize (IH (fun j => op (S j)) r). rewrite IH; [|lia|].
    + rewrite Sum_first. f_equal. ring.
    + intros j Hj. rewrite <- (H (S j)) by lia.
      replace (2 * S j)%nat with (S (S (2 * j))) by lia. replace (S (S (2 * j)) + 1)%nat with (S (S (2 * j + 1))) by lia. reflexivity.
Qed.

Lemma pf_value p s : built p -> pf p s = Some (value p s).
Proof.
  revert p. apply (profile_ind' (fun p => built p -> pf p s = Some (value p s))).
  - intros c B. apply polyval_sum, built_poly, B.
  - intros b k IH B. cbn. rewrite IH by (eapply built_scaled; eauto). reflexivity.
  - reflexivity.
  - intros ps IH B. apply built_press in B as (B & Ev & _).
    change (pf (PPressure ps) s) with (ploop (fun a b => omap2 Rmult (pf a s) (pf b s)) (Some 0) ps).
    set (d := PSpline (fun _ => 0) (fun _ => 0)).
    rewrite (ploop_sum _ (fun q => 0) (fun q => 0) (fun j => value (nth (2 * j) ps d) s * value (nth (2 * j + 1) ps d) s) (length ps) ps); [|lia|].
    + f_equal. rewrite Rplus_0_l. cbn [value]. apply Sum_ext. intros j Hj.
      pose proof (Nat.div_mod (length ps) 2 ltac:(lia)).
      change 0 with (value d s). rewrite !(map_nth (fun q => value q s)). reflexivity.
    + intros j Hj. pose proof (Nat.div_mod (length ps) 2 ltac:(lia)).
      rewrite !IH; try reflexivity; try (apply nth_In; lia); apply B, nth_In; lia.
Qed.

Lemma deriv_value p s : built p -> exists d, pdfds p s = Some d /\ D (value p) s d.
Proof.
  revert p. apply (profile_ind' (fun p => built p -> exists d, pdfds p s = Some d /\ D (value p) s d)).
  - intros c B. apply built_poly in B. eexists. split; [apply polyder_sum, B|]. cbn [value].
    apply Sum_D. intros i _. eapply D_val; [|apply D_mul; [apply D_const | apply D_power]]. cbv beta. ring.
  - intros b k IH B. destruct (IH (built_scaled _ _ B)) as (d & E & HD). cbn. rewrite E. cbn. eexists. split; [reflexivity|].
    eapply D_val; [|apply D_mul; [apply D_const | exact HD]]. cbv beta. ring.
  - intros v d B. eexists. split; [reflexivity|]. apply built_spline; auto.
  - intros ps IH B. apply built_press in B as (B & Ev & _).
    set (dd := PSpline (fun _ => 0) (fun _ => 0)).
    assert (exists op : nat -> R, forall j, (j < length ps)%nat -> pdfds (nth j ps dd) s = Some (op j) /\ D (value (nth j ps dd)) s (op j)) as (op & Hop).
    { clear Ev. exists (fun j => match pdfds (nth j ps dd) s with Some d => d | None => 0 end). intros j Hj.
      destruct (IH (nth j ps dd) (nth_In _ _ Hj) (B _ (nth_In _ _ Hj))) as (d & E & HD). rewrite E. auto. }
    change (pdfds (PPressure ps) s) with (ploop (fun a b => omap2 Rplus (omap2 Rmult (pf a s) (pdfds b s)) (omap2 Rmult (pdfds a s) (pf b s))) (Some 0) ps).
    pose proof (Nat.div_mod (length ps) 2 ltac:(lia)) as DM.
    rewrite (ploop_sum _ (fun q => 0) (fun q => 0) (fun j => value (nth (2 * j) ps dd) s * op (2 * j + 1)%nat + op (2 * j)%nat * value (nth (2 * j + 1) ps dd) s) (length ps) ps); [|lia|].
    + eexists. split; [reflexivity|]. rewrite Rplus_0_l. cbn [value].
      apply (D_ext (fun t => Sum (length ps / 2) (fun j => value (nth (2 * j) ps dd) t * value (nth (2 * j + 1) ps dd) t))).
      * intros t. apply Sum_ext. intros j Hj. symmetry. 
        change 0 with (value dd t). rewrite !(map_nth (fun q => value q t)). reflexivity.
      * apply Sum_D. intros j Hj. eapply D_val; [|apply D_mul; apply Hop; lia]. cbv beta. ring.
    + intros j Hj. fold dd. destruct (Hop (2 * j)%nat ltac:(lia)) as (-> & _). destruct (Hop (2 * j + 1)%nat ltac:(lia)) as (-> & _).
      rewrite !pf_value by (apply B, nth_In; lia). reflexivity.
Qed.

(** * C97 *)
(** every profile evaluates, to the documented function of its coefficients and components *)
Theorem C97_values : forall p s, built p -> pf p s = Some (value p s).
Proof. intros; now apply pf_value. Qed.

(** [dfds] is the derivative of [f], at every s and for every way of combining profiles *)
Theorem C97_dfds_is_the_derivative : forall p s, built p ->
  exists d, pdfds p s = Some d /\ derivable_pt_lim (fun t => match pf p t with Some v => v | None => 0 end) s d.
Proof.
  intros p s B. destruct (deriv_value p s B) as (d & E & HD). exists d. split; auto.
  apply (D_ext (value p)); auto. intros t. now rewrite pf_value.
Qed.

(** which calls of the ProfilePressure constructor are refused *)
Theorem C97_pressure_arguments : forall args, new_pressure args = None <-> args = [] \/ Nat.Odd (length args).
Proof.
  intros args. unfold new_pressure. destruct (Nat.eqb_spec (length args) 0) as [E|E].
  - split; auto. intros _. left. now destruct args.
  - destruct (Nat.eqb_spec (length args mod 2) 1) as [M|M]; split; try discriminate; auto.
    + intros _. right. exists (length args / 2)%nat. pose proof (Nat.div_mod (length args) 2). lia.
    + intros [-> | (k & Hk)]; [now cbn in E|]. exfalso. apply M. rewrite Hk.
      replace (2 * k + 1)%nat with (1 + k * 2)%nat by lia. now rewrite Nat.mod_add.
Qed.

(** with density and temperature [n], [T] of one species, scaled by [k]: value and derivative *)
Theorem C97_one_species : forall n T k s, built n -> built T ->
  pf (PScaled (PPressure [n; T]) k) s = Some (k * (value n s * value T s)) /\
  exists dn dT, pdfds n s = Some dn /\ pdfds T s = Some dT /\
    pdfds (PScaled (PPressure [n; T]) k) s = Some (k * (value n s * dT + dn * value T s)).
Proof.
  intros n T k s Bn BT. cbn. rewrite !pf_value by auto. cbn. split; [f_equal; ring|].
  destruct (deriv_value n s Bn) as (dn & En & _). destruct (deriv_value T s BT) as (dT & ET & _).
  exists dn, dT. rewrite En, ET. cbn. repeat split; auto. f_equal; ring.
Qed.

Example C97_nonvacuous : let n := PPolynomial [1; 0; 0; 0; -1] in let T := PPolynomial [2; -1] in
  built (PScaled (PPressure [n; T; n; PScaled T 3]) 5) /\ pf (PScaled (PPressure [n; T; n; PScaled T 3]) 5) 0 = Some 40 /\
  pdfds (PScaled (PPressure [n; T; n; PScaled T 3]) 5) 0 = Some (-20).
Proof.
  intros n T. assert (Bn : built n) by (constructor; discriminate). assert (BT : built T) by (constructor; discriminate).
  assert (B : built (PPressure [n; T; n; PScaled T 3])).
  { apply (b_press [n; T; n; PScaled T 3]); [reflexivity|]. intros q [<- |[<- |[<- |[<- |[]]]]]; auto using b_scaled. }
  split; [now constructor|]. cbn. split; f_equal; ring.
Qed.

(** ** ProfileSpec *)
(** [f(lvol)] is the entry of volume [lvol] when 0 <= int(lvol) < Mvol, and raises otherwise *)
Theorem C97_spec_value : forall x lvol,
  ((0 <= trunc lvol < Z.of_nat (length x))%Z -> spec_f x lvol = nth_error x (Z.to_nat (trunc lvol)) /\ spec_f x lvol <> None) /\
  (~ (0 <= trunc lvol < Z.of_nat (length x))%Z -> spec_f x lvol = None).
Proof.
  intros x lvol. unfold spec_f. generalize (trunc lvol) as l. intros l. split; intros H.
  - destruct (Z.ltb_spec l 0); try lia. destruct (Z.leb_spec (Z.of_nat (length x)) l); try lia.
    unfold pyindex. cbv zeta. destruct (Z.leb_spec 0 l); try lia. destruct (Z.ltb_spec l (Z.of_nat (length x))); try lia. cbn [andb].
    split; auto. apply nth_error_Some. lia.
  - destruct (Z.ltb_spec l 0); auto. destruct (Z.leb_spec (Z.of_nat (length x)) l); auto. lia.
Qed.

(** [dfds(lvol)] for 1 <= int(lvol) < Mvol-1 is the jump across the interface times psi_edge *)
Theorem C97_spec_jump : forall x e lvol, (1 <= trunc lvol < Z.of_nat (length x) - 1)%Z ->
  spec_dfds x (Some e) lvol = Some ((nth (Z.to_nat (trunc lvol)) x 0 - nth (Z.to_nat (trunc lvol) - 1) x 0) * e).
Proof.
  intros x e lvol. unfold spec_dfds. generalize (trunc lvol) as l. intros l H.
  destruct (Z.ltb_spec l 0); try lia. destruct (Z.leb_spec (Z.of_nat (length x) - 1) l); try lia.
  unfold pyindex. cbv zeta.
  destruct (Z.leb_spec 0 l); try lia. destruct (Z.ltb_spec l (Z.of_nat (length x))); try lia.
  destruct (Z.leb_spec 0 (l - 1)); try lia. destruct (Z.ltb_spec (l - 1) (Z.of_nat (length x))); try lia. cbn [andb].
  rewrite !(nth_error_nth' x 0) by lia. cbn [omap2]. do 2 f_equal. f_equal. f_equal. lia.
Qed.

(** the documented range is 1..Mvol-1, but the outermost interface Mvol-1 is refused, and the axis
    (0, not an interface) is answered with the difference of the first and the LAST volume *)
Theorem C97_spec_range : forall x e, (2 <= length x)%nat ->
  spec_dfds x (Some e) (INR (length x - 1)) = None /\
  spec_dfds x (Some e) 0 = Some ((nth 0 x 0 - nth (length x - 1) x 0) * e).
Proof.
  assert (T : forall n, trunc (INR n) = Z.of_nat n).
  { intros n. unfold trunc. destruct (Rle_dec 0 (INR n)) as [_|N]; [|exfalso; apply N, pos_INR].
    rewrite INR_IZR_INZ. unfold Int_part. destruct (archimed (IZR (Z.of_nat n))) as [A B].
    apply lt_IZR in A. rewrite <- minus_IZR in B. apply le_IZR in B. lia. }
  intros x e L. split.
  - unfold spec_dfds. rewrite T. destruct (Z.ltb_spec (Z.of_nat (length x - 1)) 0); auto.
    destruct (Z.leb_spec (Z.of_nat (length x) - 1) (Z.of_nat (length x - 1))); auto. lia.
  - change 0 with (INR 0) at 1. unfold spec_dfds. rewrite T. change (Z.of_nat 0) with 0%Z. change (0 <? 0)%Z with false.
    destruct (Z.leb_spec (Z.of_nat (length x) - 1) 0); try lia.
    unfold pyindex. cbv zeta. change (0 - 1)%Z with (-1)%Z. change (0 <=? -1)%Z with false. change (0 <=? 0)%Z with true. change (-1 <? 0)%Z with true.
    destruct (Z.ltb_spec 0 (Z.of_nat (length x))); try lia.
    destruct (Z.leb_spec (- Z.of_nat (length x)) (-1)); try lia. cbn [andb].
    replace (Z.to_nat (-1 + Z.of_nat (length x))) with (length x - 1)%nat by lia. change (Z.to_nat 0) with O.
    rewrite !(nth_error_nth' x 0) by lia. reflexivity.
Qed.

Example C97_spec_nonvacuous : (1 <= trunc 1.5 < Z.of_nat (length [5; 3; 2]) - 1)%Z /\ spec_dfds [5; 3; 2] (Some 10) 1.5 = Some (-20) /\ spec_f [5; 3; 2] 2 = Some 2.
Proof.
  assert (T : forall z x, IZR z <= x < IZR z + 1 -> (0 <= z)%Z -> trunc x = z).
  { intros z x [A B] Z0. unfold trunc. destruct (Rle_dec 0 x) as [_|N]; [|exfalso; apply N; apply IZR_le in Z0; lra].
    unfold Int_part. destruct (archimed x) as [C E]. 
    assert (IZR z < IZR (up x)) by lra. apply lt_IZR in H.
    assert (IZR (up x) < IZR (z + 2)) by (rewrite plus_IZR; lra). apply lt_IZR in H0. lia. }
  assert (T1 : trunc 1.5 = 1%Z) by (apply T; [lra|lia]). assert (T2 : trunc 2 = 2%Z) by (apply T; [lra|lia]).
  split; [rewrite T1; cbn; lia|]. split.
  - rewrite C97_spec_jump by (rewrite T1; cbn; lia). rewrite T1. change (Z.to_nat 1) with 1%nat. cbn [nth Nat.sub]. f_equal. lra.
  - unfold spec_f. rewrite T2. reflexivity.
Qed.
