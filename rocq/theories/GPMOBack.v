(** C87: the greedy solver with backtracking. *)
From Coq Require Import Reals Lra Lia List Bool Arith ZArith ZifyNat Psatz.
From Verif Require Import ListAux VecAux CurveObjModel CurveObjProps GPMOModel GPMOProps GPMOOver.
Import ListNotations.
Open Scope R_scope.
Ltac Zify.zify_post_hook ::= Z.to_euclidean_division_equations.

Lemma nth_end {T} (l : list T) d a : nth (length l) (l ++ [a]) d = a.
Proof. rewrite app_nth2, Nat.sub_diag; [reflexivity|lia]. Qed.
Lemma test_false (l : list nat) (v n : nat) : v <> O -> n = (length l + 1)%nat -> (10 <? n)%nat && (nth n (l ++ [v]) O =? nth (n - 1) (l ++ [v]) O)%nat && (nth n (l ++ [v]) O =? nth (n - 2) (l ++ [v]) O)%nat = false.
Proof.
  intros V ->. assert (O0 : nth (length l + 1) (l ++ [v]) O = O). { apply nth_overflow. rewrite app_length. apply le_n. } rewrite O0. assert (O1 : nth (length l + 1 - 1) (l ++ [v]) O = v) by (rewrite Nat.add_sub; apply nth_end). rewrite O1.
  destruct v as [|v]; [congruence|]. destruct (10 <? _)%nat; reflexivity.
Qed.
(** ** Specification *)
Section Spec.
Variables (ng N : nat) (A : nat -> nat -> R) (b : nat -> R) (mm : nat -> R) (sd : option nat) (connect : nat -> nat -> nat) (nadj bt : nat).
Definition adjacent (i j : nat) : Prop := exists a, (a < nadj)%nat /\ connect i a = j.
(** equal and opposite magnets at adjacent sites *)
Definition opposite (x : nat -> R) (i j : nat) : Prop := (i < 3 * N)%nat /\ (j < 3 * N)%nat /\ x i <> 0 /\ x i = - x j /\ (i mod 3 = j mod 3)%nat /\ adjacent (i / 3) (j / 3).
(** some such pairs removed *)
Inductive pruned : (nat -> R) -> (nat -> R) -> Prop :=
| pr_refl x : pruned x x
| pr_step x y i j : pruned x y -> opposite y i j -> pruned x (put (put y i 0) j 0).
(** each iteration places one of the best candidates; in every bt-th iteration pairs are removed until none is left, apart from those that only the neighbour list of the site just filled knows of *)
Definition back_path (n : nat) (xs : nat -> nat -> R) : Prop := (forall j, xs O j = 0) /\
  forall k, (k < n)%nat -> exists j sg, candidate N sd (xs k) j sg /\ (forall j' sg', candidate N sd (xs k) j' sg' -> score ng N A b mm (xs k) j sg <= score ng N A b mm (xs k) j' sg') /\
    if ((bt <=? k) && (k mod bt =? 0))%nat then pruned (put (xs k) j sg) (xs (S k)) /\ (forall i i', (i / 3 <> j / 3)%nat -> ~ opposite (xs (S k)) i i')
    else xs (S k) = put (xs k) j sg.
End Spec.

Section Back.
Variables (ng N : nat) (A : nat -> nat -> R) (b : nat -> R) (mm : nat -> R) (sd : option nat) (connect : nat -> nat -> nat) (nadj bt : nat).
Hypothesis Hsd : forall d, sd = Some d -> (d < 3)%nat.
Hypothesis Hmod : moderate ng N A b mm.
Hypothesis Hcon : forall i a, (i < N)%nat -> (connect i a < N)%nat.
Hypothesis Hbt : (0 < bt)%nat.
Notation Inv := (Inv ng N A b sd).
Notation bplace := (bplace ng N A mm sd).
Notation choice := (choice ng N A mm sd).
Notation place := (place ng N A mm sd).
Notation dewyrm := (dewyrm A connect nadj).
Notation sweep := (sweep A connect nadj).
Notation magnets := (magnets N).
Notation chosen := (chosen ng N A mm sd).
Notation opposite := (opposite N connect nadj).
Notation pruned := (pruned N connect nadj).
(** the bookkeeping of signs and components describes x *)
Definition books (s : bst) : Prop := forall site c, (site < N)%nat -> (c < 3)%nat -> (jj s site < 3)%nat /\ gx (bg s) (3 * site + c)%nat = if (c =? jj s site)%nat then sk s site else 0.
Definition BInv (s : bst) : Prop := Inv (bg s) /\ books s.
Lemma books_flat s j : books s -> (j < 3 * N)%nat -> gx (bg s) j = if (j mod 3 =? jj s (j / 3))%nat then sk s (j / 3)%nat else 0.
Proof. intros BK L. destruct (BK (j / 3)%nat (j mod 3)%nat ltac:(lia) ltac:(lia)) as (_ & E). rewrite <- E. f_equal. lia. Qed.
Lemma books_empty s site : books s -> (site < N)%nat -> empty (gx (bg s)) site <-> sk s site = 0.
Proof.
  intros BK L. rewrite empty_iff. split.
  - intros E. destruct (BK site (jj s site) L) as (_ & K); [destruct (BK site O L); lia|]. rewrite Nat.eqb_refl in K. rewrite <- K. apply E. destruct (BK site O L); lia.
  - intros Z j <-. rewrite books_flat by (auto; lia). rewrite Z. now destruct (_ =? _)%nat.
Qed.
Lemma books_vals s site : BInv s -> (site < N)%nat -> sk s site = 0 \/ sk s site = 1 \/ sk s site = -1.
Proof. intros (I & BK) L. destruct (BK site (jj s site) L) as (_ & K); [destruct (BK site O L); lia|]. rewrite Nat.eqb_refl in K. rewrite <- K. apply I. Qed.
Lemma binit_inv : BInv (binit b).
Proof. split; [now apply init_inv|]. intros site c L C. cbn. split; [lia|]. now destruct (c =? 0)%nat. Qed.
Lemma bplace_g s : bg (bplace s) = place (bg s).
Proof. unfold GPMOModel.bplace. now destruct (choice (bg s)). Qed.
Lemma bplace_inv s : BInv s -> (magnets (gx (bg s)) < N)%nat -> BInv (bplace s).
Proof.
  intros (I & BK) ML. split; [rewrite bplace_g; apply place_inv; auto|]. destruct (choice (bg s)) as [j sg] eqn:E. destruct (choice_best ng N A b mm sd Hsd Hmod (bg s) j sg I ML E) as ((C1 & _ & _ & C4) & _).
  intros site c L C. unfold GPMOModel.bplace. rewrite E. cbn [bg sk jj]. rewrite (place_eq _ _ _ _ _ _ j sg E). unfold upd, put. destruct (Nat.eqb_spec site (j / 3)) as [->|NE].
  - split; [lia|]. destruct (Nat.eqb_spec (3 * (j / 3) + c) j), (Nat.eqb_spec c (j mod 3)); try lia; [reflexivity|]. rewrite empty_iff in C4. apply C4. lia.
  - destruct (Nat.eqb_spec (3 * site + c) j); [lia|]. now apply BK.
Qed.
Lemma bplace_chosen s : sk (bplace s) = upd (sk s) (chosen s) (snd (choice (bg s))).
Proof. unfold GPMOModel.bplace, GPMOModel.chosen. destruct (choice (bg s)); reflexivity. Qed.
Lemma wyrm_spec s jk cj : wyrm s jk cj = true <-> sk s jk <> 0 /\ sk s jk = - sk s cj /\ jj s jk = jj s cj.
Proof. unfold wyrm. destruct (Reqb_spec (sk s jk) 0), (Reqb_spec (sk s jk) (- sk s cj)), (Nat.eqb_spec (jj s jk) (jj s cj)); cbn; intuition congruence. Qed.
(** removing one pair *)
Lemma kill_spec s jk cj : BInv s -> (jk < N)%nat -> (cj < N)%nat -> In cj (map (connect jk) (seq 0 nadj)) -> wyrm s jk cj = true ->
  BInv (kill A s jk cj) /\ pruned (gx (bg s)) (gx (bg (kill A s jk cj))) /\ (magnets (gx (bg s)) = magnets (gx (bg (kill A s jk cj))) + 2)%nat.
Proof.
  intros (I & BK) LJ LC AD W. apply wyrm_spec in W. destruct W as (W1 & W2 & W3). assert (NE : jk <> cj) by (intros ->; apply W1; lra).
  destruct (BK jk (jj s jk) LJ) as (J3 & XJ); [destruct (BK jk O LJ); lia|]. destruct (BK cj (jj s cj) LC) as (K3 & XC); [destruct (BK cj O LC); lia|]. rewrite Nat.eqb_refl in XJ, XC.
  set (j1 := (3 * jk + jj s jk)%nat) in *. set (j2 := (3 * cj + jj s cj)%nat) in *. assert (D1 : (j1 / 3 = jk /\ j1 < 3 * N)%nat) by (unfold j1; lia). assert (D2 : (j2 / 3 = cj /\ j2 < 3 * N)%nat) by (unfold j2; lia). destruct D1 as (D1 & L1), D2 as (D2 & L2). assert (N12 : j1 <> j2) by (unfold j1, j2; lia).
  destruct I as (B & RS & GM & R2). set (x := gx (bg s)) in *. set (y := put (put x j1 0) j2 0).
  assert (XK : gx (bg (kill A s jk cj)) = y) by reflexivity.
  assert (EY : forall st, empty y st <-> empty x st \/ st = jk \/ st = cj). { intros st. rewrite !empty_iff. split.
    - intros H. destruct (Nat.eq_dec st jk); auto. destruct (Nat.eq_dec st cj); auto. left. intros i Hi. specialize (H i Hi). unfold y, put in H. destruct (Nat.eqb_spec i j2); [subst i; lia|]. destruct (Nat.eqb_spec i j1); [subst i; lia|]. exact H.
    - intros H i Hi. unfold y, put. destruct (Nat.eqb_spec i j2) as [|N2]; [reflexivity|]. destruct (Nat.eqb_spec i j1) as [|N1]; [reflexivity|]. destruct H as [H|[H|H]]; [auto| |].
      + subst st. unfold x. rewrite (books_flat s i BK) by lia. rewrite Hi. destruct (Nat.eqb_spec (i mod 3) (jj s jk)); [exfalso; apply N1; unfold j1; lia|reflexivity].
      + subst st. unfold x. rewrite (books_flat s i BK) by lia. rewrite Hi. destruct (Nat.eqb_spec (i mod 3) (jj s cj)); [exfalso; apply N2; unfold j2; lia|reflexivity]. }
  split; [split|split].
  - split; [|split; [|split]].
    + rewrite XK. destruct B as (B1 & B2 & B3). split; [|split].
      * intros i. unfold y, put. destruct (i =? j2)%nat; auto. destruct (i =? j1)%nat; auto.
      * intros i k. unfold y, put. destruct (i =? j2)%nat; [lra|]. destruct (i =? j1)%nat; [lra|]. destruct (k =? j2)%nat; [lra|]. destruct (k =? j1)%nat; [lra|]. apply B2.
      * intros i Hi. unfold y, put. destruct (i =? j2)%nat; auto. destruct (i =? j1)%nat; auto.
    + intros i Hi. rewrite XK. unfold y. change (put (put x j1 0) j2 0) with (upd (upd x j1 0) j2 0). rewrite (sum_to_upd (3 * N) (fun j => A j i) (upd x j1 0) j2 0 L2), (sum_to_upd (3 * N) (fun j => A j i) x j1 0 L1). unfold upd at 1. destruct (Nat.eqb_spec j2 j1); [congruence|]. rewrite XC, XJ. unfold kill. cbn [bg res]. fold j1 j2. rewrite (RS i Hi). fold x. ring.
    + intros j Hj. rewrite XK, EY. unfold kill. cbn [bg gam]. destruct (Nat.eqb_spec (j / 3) jk), (Nat.eqb_spec (j / 3) cj); cbn [orb]; try tauto. rewrite (GM j Hj). tauto.
    + intros p P NC. rewrite XK in NC. unfold kill. cbn [bg r2s]. apply R2; [exact P|]. intros (C1 & C2 & C3 & C4). apply NC. split; [auto|]. split; [auto|]. split; [auto|]. apply EY. auto.
  - intros site c L C. rewrite XK. unfold kill. cbn [sk jj]. destruct (BK site c L C) as (J0 & XE). split; [exact J0|]. unfold upd. destruct (Nat.eqb_spec site cj) as [->|N1]; [|destruct (Nat.eqb_spec site jk) as [->|N2]].
    + assert (K := proj2 (empty_iff y cj)). assert (Z : y (3 * cj + c)%nat = 0) by (apply (proj1 (empty_iff y cj)); [apply EY; auto|lia]). rewrite Z. now destruct (c =? _)%nat.
    + assert (Z : y (3 * jk + c)%nat = 0) by (apply (proj1 (empty_iff y jk)); [apply EY; auto|lia]). rewrite Z. now destruct (c =? _)%nat.
    + rewrite <- XE. unfold y, put. destruct (Nat.eqb_spec (3 * site + c) j2); [unfold j2 in *; lia|]. destruct (Nat.eqb_spec (3 * site + c) j1); [unfold j1 in *; lia|]. reflexivity.
  - rewrite XK. unfold y. apply pr_step with (x := x); [constructor|]. split; [exact L1|]. split; [exact L2|]. split; [rewrite XJ; exact W1|]. split; [rewrite XJ, XC; exact W2|]. split; [unfold j1, j2; lia|]. rewrite D1, D2. apply in_map_iff in AD. destruct AD as (a & Ea & Ha). apply in_seq in Ha. exists a. split; [lia|exact Ea].
  - rewrite XK. assert (M1 : magnets x = S (magnets (put x j1 0))). { rewrite <- (put_magnets N (put x j1 0) j1 (sk s jk) L1 W1).
      - apply magnets_ext. intros i. unfold put. destruct (Nat.eqb_spec i j1) as [->|]; [exact XJ|reflexivity].
      - apply empty_iff. intros i Hi. unfold put. destruct (Nat.eqb_spec i j1) as [|N1]; [reflexivity|]. unfold x. rewrite (books_flat s i BK) by lia. rewrite Hi, D1. destruct (Nat.eqb_spec (i mod 3) (jj s jk)); [exfalso; apply N1; unfold j1; lia|reflexivity]. }
    assert (M2 : magnets (put x j1 0) = S (magnets y)). { rewrite <- (put_magnets N y j2 (sk s cj) L2); [|lra|rewrite D2; apply EY; auto].
      apply magnets_ext. intros i. unfold y. unfold put at 2. unfold put at 2. destruct (Nat.eqb_spec i j2) as [->|]; [|reflexivity]. unfold put. destruct (Nat.eqb_spec j2 j1); [congruence|exact XC]. }
    lia.
Qed.
Lemma pruned_trans x y z : pruned x y -> pruned y z -> pruned x z.
Proof. intros P Q. induction Q; [exact P|]. eapply pr_step; eauto. Qed.
Definition clear_of (s : bst) (jk : nat) : Prop := forall cj, In cj (map (connect jk) (seq 0 nadj)) -> wyrm s jk cj = false.
Lemma kill_clear s jk cj st : clear_of s st -> clear_of (kill A s jk cj) st.
Proof.
  intros C c Hc. specialize (C c Hc). destruct (wyrm (kill A s jk cj) st c) eqn:W; [|reflexivity]. rewrite <- C. apply wyrm_spec in W. destruct W as (W1 & W2 & W3). symmetry. apply wyrm_spec. unfold kill in *. cbn [sk jj] in *. unfold upd in *. destruct (st =? cj)%nat; [lra|]. destruct (st =? jk)%nat; [lra|]. destruct (c =? cj)%nat; [lra|]. destruct (c =? jk)%nat; [lra|]. auto.
Qed.
Lemma kill_self s jk cj : clear_of (kill A s jk cj) jk.
Proof. intros c Hc. destruct (wyrm (kill A s jk cj) jk c) eqn:W; [|reflexivity]. apply wyrm_spec in W. destruct W as (W1 & _). exfalso. apply W1. unfold kill. cbn [sk]. unfold upd. destruct (jk =? cj)%nat; [reflexivity|]. now rewrite Nat.eqb_refl. Qed.
Lemma dewyrm_spec s jk : BInv s -> (jk < N)%nat -> let s' := dewyrm s jk in
  BInv s' /\ pruned (gx (bg s)) (gx (bg s')) /\ (exists p, magnets (gx (bg s)) = magnets (gx (bg s')) + 2 * p)%nat /\ clear_of s' jk /\ (forall st, clear_of s st -> clear_of s' st) /\ (forall st, sk s st = 0 -> sk s' st = 0).
Proof.
  intros I L. cbv zeta. unfold GPMOModel.dewyrm. destruct (find (wyrm s jk) (map (connect jk) (seq 0 nadj))) as [cj|] eqn:F.
  - apply find_some in F. destruct F as (F1 & F2). assert (LC : (cj < N)%nat) by (apply in_map_iff in F1; destruct F1 as (a & <- & _); now apply Hcon). destruct (kill_spec s jk cj I L LC F1 F2) as (K1 & K2 & K3). split; [exact K1|]. split; [exact K2|]. split; [exists 1%nat; lia|]. split; [apply kill_self|]. split; [intros; now apply kill_clear|]. intros st Z. unfold kill. cbn [sk]. unfold upd. destruct (st =? cj)%nat; auto. destruct (st =? jk)%nat; auto.
  - split; [exact I|]. split; [constructor|]. split; [exists O; lia|]. split; [|auto]. intros c Hc. exact (find_none _ _ F c Hc).
Qed.
Lemma sweep_spec l s : BInv s -> (forall st, In st l -> (st < N)%nat) -> let s' := sweep l s in
  BInv s' /\ pruned (gx (bg s)) (gx (bg s')) /\ (exists p, magnets (gx (bg s)) = magnets (gx (bg s')) + 2 * p)%nat /\ (forall st, In st l -> clear_of s' st) /\ (forall st, clear_of s st -> clear_of s' st) /\ (forall st, sk s st = 0 -> sk s' st = 0).
Proof.
  revert s. induction l as [|a l IH]; intros s I L; cbv zeta; unfold GPMOModel.sweep; cbn [fold_left].
  - split; [exact I|]. split; [constructor|]. split; [exists O; lia|]. split; [intros st []|auto].
  - fold (sweep l (dewyrm s a)). destruct (dewyrm_spec s a I ltac:(apply L; left; auto)) as (D1 & D2 & (p & D3) & D4 & D5 & D6). destruct (IH (dewyrm s a) D1 ltac:(intros; apply L; right; auto)) as (E1 & E2 & (q & E3) & E4 & E5 & E6). split; [exact E1|]. split; [eapply pruned_trans; eauto|]. split; [exists (p + q)%nat; lia|]. split; [|split; auto]. intros st [<-|Hs]; auto.
Qed.
Lemma clear_opposite s i j : BInv s -> clear_of s (i / 3) -> ~ opposite (gx (bg s)) i j.
Proof.
  intros (I & BK) C (L1 & L2 & NZ & E & M & (a & La & Ea)). rewrite (books_flat s i BK L1) in *. rewrite (books_flat s j BK L2) in E. specialize (C (j / 3)%nat). assert (IN : In (j / 3)%nat (map (connect (i / 3)) (seq 0 nadj))) by (rewrite <- Ea; apply in_map, in_seq; lia). specialize (C IN).
  destruct (Nat.eqb_spec (i mod 3) (jj s (i / 3))) as [E1|]; [|lra]. destruct (Nat.eqb_spec (j mod 3) (jj s (j / 3))) as [E2|]; [|lra]. assert (W : wyrm s (i / 3) (j / 3) = true) by (apply wyrm_spec; split; [auto|split; [auto|congruence]]). congruence.
Qed.
Lemma occupied_magnets g : Inv g -> occupied N g = magnets (gx g).
Proof.
  intros (_ & _ & GM & _). unfold occupied, GPMOProps.magnets. f_equal. apply filter_ext_in. intros st Hs. apply in_seq in Hs. assert (K : forall c, (c < 3)%nat -> gam g (3 * st + c) = emptyb (gx g) st). { intros c Hc. specialize (GM (3 * st + c)%nat ltac:(lia)). replace ((3 * st + c) / 3)%nat with st in GM by lia. rewrite <- emptyb_spec in GM. destruct (gam g (3 * st + c)), (emptyb (gx g) st); auto; [symmetry|]; apply GM; reflexivity. }
  assert (K0 := K O ltac:(lia)). rewrite Nat.add_0_r in K0. rewrite K0, (K 1%nat), (K 2%nat) by lia. now destruct (emptyb (gx g) st).
Qed.

(** ** The states of a run *)
Definition iterb (k : nat) (s : bst) (placed : list nat) : bst := if ((bt <=? k) && (k mod bt =? 0))%nat then sweep placed (bplace s) else bplace s.
Fixpoint bk (k : nat) : bst * list nat := match k with O => (binit b, []) | S k => let '(s, p) := bk k in (iterb k s p, (p ++ [chosen s])%list) end.
Notation st k := (fst (bk k)).
Notation xs k := (gx (bg (fst (bk k)))).
Lemma bk_S k : bk (S k) = (iterb k (st k) (snd (bk k)), (snd (bk k) ++ [chosen (st k)])%list). Proof. cbn [bk]. now destruct (bk k). Qed.
Definition running (k : nat) : Prop := forall i, (i < k)%nat -> (magnets (xs i) < N)%nat.
Lemma choice_site s j sg : BInv s -> (magnets (gx (bg s)) < N)%nat -> choice (bg s) = (j, sg) -> (j < 3 * N)%nat /\ sg <> 0 /\ empty (gx (bg s)) (j / 3).
Proof. intros (I & _) M E. destruct (choice_best ng N A b mm sd Hsd Hmod (bg s) j sg I M E) as ((C1 & _ & C3 & C4) & _). split; [auto|]. split; [destruct C3; lra|auto]. Qed.
Lemma bk_inv k : running k -> BInv (st k) /\ (forall s, In s (snd (bk k)) -> (s < N)%nat) /\ (forall s, (s < N)%nat -> sk (st k) s <> 0 -> In s (snd (bk k))) /\ (Nat.even (magnets (xs k)) = Nat.even k) /\ (magnets (xs k) <= k)%nat.
Proof.
  induction k as [|k IH]; intros RN.
  - cbn [bk fst snd]. split; [exact binit_inv|]. split; [intros s []|]. split; [intros s _ H; exfalso; apply H; reflexivity|]. rewrite (magnets_0 N) by reflexivity. auto.
  - destruct IH as (I & P1 & P2 & EV & LE); [intros i Hi; apply RN; lia|]. assert (ML := RN k ltac:(lia)). rewrite bk_S. cbn [fst snd]. set (s := st k) in *. set (p := snd (bk k)) in *. destruct (choice (bg s)) as [j sg] eqn:E. destruct (choice_site s j sg I ML E) as (C1 & C3 & C4).
    assert (CH : chosen s = (j / 3)%nat) by (unfold GPMOModel.chosen; rewrite E; reflexivity). assert (I1 := bplace_inv s I ML). assert (M1 : magnets (gx (bg (bplace s))) = S (magnets (gx (bg s)))) by (rewrite bplace_g, (place_eq _ _ _ _ _ _ j sg E); now apply put_magnets).
    assert (PP : forall s0, In s0 (p ++ [chosen s])%list -> (s0 < N)%nat). { intros s0 Hs. apply in_app_iff in Hs. destruct Hs as [Hs|[<-|[]]]; [auto|]. rewrite CH. lia. }
    assert (PQ : forall s0, (s0 < N)%nat -> sk (bplace s) s0 <> 0 -> In s0 (p ++ [chosen s])%list). { intros s0 L NZ. apply in_app_iff. rewrite bplace_chosen in NZ. unfold upd in NZ. destruct (Nat.eqb_spec s0 (chosen s)) as [->|]; [right; left; auto|left; auto]. }
    unfold iterb. destruct ((bt <=? k) && (k mod bt =? 0))%nat.
    + destruct (sweep_spec p (bplace s) I1 P1) as (S1 & _ & (q & S3) & _ & _ & S6). split; [exact S1|]. split; [exact PP|]. split; [intros s0 L NZ; apply PQ; auto|].
      split; [|lia]. assert (E2 : Nat.even (magnets (gx (bg (sweep p (bplace s))))) = Nat.even (S (magnets (gx (bg s))))) by (rewrite <- M1, S3; generalize (magnets (gx (bg (sweep p (bplace s))))); intros mg; rewrite Nat.even_add, Nat.even_mul; change (Nat.even 2) with true; cbn [orb]; now destruct (Nat.even mg)). rewrite E2, !Nat.even_succ, <- !Nat.negb_even. now rewrite EV.
    + split; [exact I1|]. split; [exact PP|]. split; [exact PQ|]. split; [|lia]. rewrite M1, !Nat.even_succ, <- !Nat.negb_even. now rewrite EV.
Qed.
Lemma bk_path n : running n -> back_path ng N A b mm sd connect nadj bt n (fun k => xs k).
Proof.
  intros RN. split; [reflexivity|]. intros k Hk. destruct (bk_inv k) as (I & P1 & P2 & _); [intros i Hi; apply RN; lia|]. assert (ML := RN k Hk). rewrite bk_S. cbn [fst]. set (s := st k) in *. set (p := snd (bk k)) in *. destruct (choice (bg s)) as [j sg] eqn:E. destruct (choice_best ng N A b mm sd Hsd Hmod (bg s) j sg (proj1 I) ML E) as (C & BE). exists j, sg. split; [exact C|]. split; [exact BE|].
  assert (I1 := bplace_inv s I ML). assert (X1 : gx (bg (bplace s)) = put (gx (bg s)) j sg) by (rewrite bplace_g; apply (place_eq _ _ _ _ _ _ j sg E)). unfold iterb. destruct ((bt <=? k) && (k mod bt =? 0))%nat; [|exact X1].
  destruct (sweep_spec p (bplace s) I1 P1) as (S1 & S2 & _ & S4 & _ & S6). rewrite X1 in S2. split; [exact S2|]. intros i i' NE O. apply (clear_opposite (sweep p (bplace s)) i i' S1); [|exact O]. apply S4. destruct O as (L1 & _ & NZ & _). rewrite (books_flat _ i (proj2 S1) L1) in NZ.
  assert (SK : sk (sweep p (bplace s)) (i / 3) <> 0) by (destruct (_ =? _)%nat; [exact NZ|lra]). assert (SB : sk (bplace s) (i / 3) <> 0) by (intros Z; apply SK, S6, Z). rewrite bplace_chosen in SB. unfold upd in SB. destruct (Nat.eqb_spec (i / 3) (chosen s)) as [EQ|]; [|apply P2; [lia|exact SB]]. exfalso. apply NE. rewrite EQ. unfold GPMOModel.chosen. now rewrite E.
Qed.

(** ** The loop *)
Section Loop.
Variables (verbose : bool) (K nh maxn : nat).
Definition recs (k : nat) : list nat := filter (recorded verbose K nh) (seq 0 k).
Definition obj (k : nat) : R := / 2 * misfit ng N A b (xs (S k)).
Definition mag (k : nat) : nat := magnets (xs (S k)).
Definition limit (k : nat) : bool := (N <=? magnets (xs k))%nat || (maxn <=? magnets (xs k))%nat.
(** not stopped after any of the first k iterations *)
Definition alive (k : nat) : Prop := (0 < N)%nat /\ forall i, (0 < i <= k)%nat -> limit i = false.
Lemma alive_running k : alive k -> running (S k).
Proof. intros (NP & AL) i Hi. destruct i as [|i]; [cbn [bk fst]; rewrite (magnets_0 N) by reflexivity; exact NP|]. specialize (AL (S i) ltac:(lia)). unfold limit in AL. lia. Qed.
Lemma recs_S k : recs (S k) = (recs k ++ if recorded verbose K nh k then [k] else [])%list.
Proof. unfold recs. rewrite seq_S, filter_app. cbn [filter plus]. reflexivity. Qed.
Lemma obj_eq k : running (S k) -> objective ng (bg (st (S k))) = obj k.
Proof. intros RN. unfold obj. destruct (bk_inv (S k) RN) as ((I & _) & _). exact (objective_eq ng N A b sd _ I). Qed.
Lemma occ_eq k : running (S k) -> occupied N (bg (st (S k))) = mag k.
Proof. intros RN. unfold mag. destruct (bk_inv (S k) RN) as ((I & _) & _). now apply occupied_magnets. Qed.
Lemma mag_parity k : running (S k) -> Nat.even (mag k) = Nat.even (S k).
Proof. intros RN. now destruct (bk_inv (S k) RN) as (_ & _ & _ & E & _). Qed.
(** the record before the one of iteration k *)
Lemma recs_last k : (K / nh <> 0)%nat -> verbose = true -> (0 < k < K - 1)%nat -> recorded verbose K nh k = true -> exists l, recs k = (l ++ [(k - K / nh)%nat])%list /\ (K / nh <= k)%nat /\ (k mod (K / nh) = 0)%nat.
Proof.
  intros Q V L RK. set (q := (K / nh)%nat) in *. unfold recorded in RK. fold q in RK. rewrite V in RK. cbn [andb] in RK. assert (MZ : (k mod q = 0)%nat) by (destruct (Nat.eqb_spec (k mod q) 0); [assumption|]; destruct (Nat.eqb_spec k 0); [exfalso; lia|]; destruct (Nat.eqb_spec k (K - 1)); [exfalso; lia|discriminate]). assert (D := Nat.div_mod k q Q). assert (QK : (q <= k)%nat) by (rewrite MZ in D; clear - D L; destruct (k / q)%nat; nia). exists (filter (recorded verbose K nh) (seq 0 (k - q))). split; [|auto]. unfold recs. replace k with ((k - q) + q)%nat at 1 by lia. rewrite seq_app, filter_app. f_equal. cbn [plus]. destruct q as [|r] eqn:QE; [lia|]. cbn [seq filter].
  assert (M0 : ((k - S r) mod S r = 0)%nat). { replace (k - S r)%nat with ((k / S r - 1) * S r)%nat by nia. apply Nat.mod_mul. lia. }
  assert (R0 : recorded verbose K nh (k - S r) = true) by (unfold recorded; fold q; rewrite QE, V, M0; reflexivity). rewrite R0. f_equal.
  assert (Z : forall n a, (k - S r < a)%nat -> (a + n <= k)%nat -> filter (recorded verbose K nh) (seq a n) = []). { induction n as [|n IH]; intros a L1 L2; [reflexivity|]. cbn [seq filter]. assert (RA : recorded verbose K nh a = false). { unfold recorded. fold q. rewrite QE, V. cbn [andb]. assert (AM : (a mod S r <> 0)%nat). { replace a with ((a - (k - S r)) + (k / S r - 1) * S r)%nat by nia. rewrite Nat.mod_add by lia. rewrite Nat.mod_small by lia. lia. } destruct (Nat.eqb_spec (a mod S r) 0); [contradiction|]. cbn [orb]. lia. } rewrite RA. apply IH; lia. }
  apply Z; lia.
Qed.
(** the test for being stuck only succeeds in the last iteration *)
Lemma never_stuck k : (K / nh <> 0)%nat -> verbose = true -> running (S k) -> (k < K)%nat -> recorded verbose K nh k = true -> 
  let l := map mag (recs k ++ [k]) in let pi := length l in (10 <? pi)%nat && (nth pi l O =? nth (pi - 1) l O)%nat && (nth pi l O =? nth (pi - 2) l O)%nat = true -> (k = K - 1 /\ mag k = 0 /\ 0 < k)%nat.
Proof.
  intros Q V RN LK RK l pi T. rewrite !andb_true_iff in T. destruct T as ((T1 & T2) & T3). assert (N0 : nth pi l O = O) by (apply nth_overflow; unfold pi; lia). rewrite N0 in *.
  assert (LP : pi = S (length (recs k))) by (unfold pi, l; rewrite map_length, app_length; cbn; lia). assert (E1 : nth (pi - 1) l O = mag k). { rewrite LP. replace (S (length (recs k)) - 1)%nat with (length (recs k)) by lia. unfold l. rewrite map_app. cbn [map]. rewrite <- (map_length mag (recs k)). apply nth_end. }
  assert (M0 : mag k = O) by (rewrite E1 in T2; apply Nat.eqb_eq in T2; lia). assert (KP : (0 < k)%nat). { destruct k; [|lia]. exfalso. revert T1. rewrite LP. cbn. discriminate. } split; [|split; auto].
  destruct (Nat.eq_dec k (K - 1)) as [|NE]; [assumption|]. exfalso. destruct (recs_last k Q V ltac:(lia) RK) as (l0 & EL & QK & MZ). set (q := (K / nh)%nat) in *.
  assert (E2 : nth (pi - 2) l O = mag (k - q)). { rewrite LP. unfold l. rewrite EL. rewrite app_length. cbn [length]. replace (S (length l0 + 1) - 2)%nat with (length l0) by lia. rewrite <- app_assoc. rewrite !map_app. cbn [map]. rewrite <- (map_length mag l0). rewrite app_nth2, Nat.sub_diag by lia. reflexivity. }
  assert (M2 : mag (k - q) = O) by (rewrite E2 in T3; apply Nat.eqb_eq in T3; lia). assert (P1 := mag_parity k RN). assert (P2 := mag_parity (k - q) ltac:(intros i Hi; apply RN; lia)). rewrite M0 in P1. rewrite M2 in P2. change (Nat.even 0) with true in P2. change (Nat.even 0) with true in P1.
  symmetry in P1, P2. apply Nat.even_spec in P1, P2. destruct P1 as (u & P1), P2 as (v & P2). assert (D := Nat.div_mod k q Q). rewrite MZ in D. assert (QE : q = (2 * (u - v))%nat) by lia. rewrite QE in D at 1. nia.
Qed.
Lemma loop_inv fuel : forall k h x nums, (k + fuel = K)%nat -> alive k ->
  back_loop ng N A mm sd connect verbose K nh bt nadj maxn fuel k (map obj (recs k)) (map mag (recs k)) (snd (bk k)) (st k) = (GDone h x, nums) ->
  exists n, (k <= n <= K)%nat /\ alive (n - 1) /\ x = xs n /\ nums = map mag (recs n) /\ ((n = K /\ (limit n = false \/ n = 0%nat)) \/ (0 < n)%nat /\ limit n = true) /\
    h = (map obj (recs n) ++ if (0 <? n)%nat && limit n then [obj (n - 1)] else [])%list.
Proof.
  induction fuel as [|fuel IH]; intros k h x nums EK AL E; cbn [back_loop] in E.
  - injection E as <- <- <-. exists k. split; [lia|]. destruct AL as (NP & AL). split; [split; [exact NP|intros; apply AL; lia]|]. split; [reflexivity|]. split; [reflexivity|]. assert (LF : (0 < k)%nat -> limit k = false) by (intros; apply AL; lia). destruct k as [|k]; [split; [left; split; [lia|auto]|reflexivity]|]. rewrite LF by lia. split; [left; split; [lia|auto]|]. now rewrite andb_false_r, app_nil_r.
  - cbv zeta in E. assert (RN := alive_running k AL). set (s1 := GPMOModel.bplace ng N A mm sd (st k)) in *.
    match type of E with (match ?q with Some _ => _ | None => _ end) = _ => assert (SE : q = Some (st (S k))) end. { rewrite bk_S. cbn [fst]. unfold iterb. fold s1. destruct bt as [|bt']; [lia|]. destruct (Nat.leb_spec (S bt') k) as [L|L]; [|reflexivity]. cbn [andb]. destruct (k mod S bt' =? 0)%nat; reflexivity. }
    rewrite SE in E. clear SE s1. rewrite (occ_eq k RN), (obj_eq k RN) in E. change ((N <=? mag k)%nat || (maxn <=? mag k)%nat) with (limit (S k)) in E.
    change (snd (bk k) ++ [GPMOModel.chosen ng N A mm sd (st k)])%list with (snd (iterb k (st k) (snd (bk k)), (snd (bk k) ++ [GPMOModel.chosen ng N A mm sd (st k)])%list)) in E. rewrite <- bk_S in E.
    assert (STOP : forall h0 nums0, h0 = map obj (recs (S k)) -> nums0 = map mag (recs (S k)) -> 
       (if limit (S k) then match write nh h0 (obj k) with Some h' => (GDone h' (xs (S k)), nums0) | None => (GOutOfBounds, nums0) end else back_loop ng N A mm sd connect verbose K nh bt nadj maxn fuel (S k) h0 nums0 (snd (bk (S k))) (st (S k))) = (GDone h x, nums) ->
       exists n, (k <= n <= K)%nat /\ alive (n - 1) /\ x = xs n /\ nums = map mag (recs n) /\ ((n = K /\ (limit n = false \/ n = 0%nat)) \/ (0 < n)%nat /\ limit n = true) /\ h = (map obj (recs n) ++ if (0 <? n)%nat && limit n then [obj (n - 1)] else [])%list).
    { intros h0 nums0 -> -> EE. destruct (limit (S k)) eqn:LM.
      - unfold write in EE. destruct (_ <? _)%nat; [|discriminate]. injection EE as <- <- <-. exists (S k). rewrite LM. replace (S k - 1)%nat with k by lia. split; [lia|]. split; [exact AL|]. split; [reflexivity|]. split; [reflexivity|]. split; [right; split; [lia|reflexivity]|reflexivity].
      - destruct (IH (S k) h x nums ltac:(lia)) as (n & Hn & R0); [destruct AL as (NP & AL); split; [exact NP|]; intros i Hi; destruct (Nat.eq_dec i (S k)) as [->|]; [exact LM|apply AL; lia]|exact EE|]. exists n. split; [lia|exact R0]. }
    assert (RS := recs_S k). destruct verbose eqn:V.
    + unfold records in E. unfold recorded in RS. destruct (K / nh)%nat as [|q] eqn:QE; [discriminate|]. cbn [andb] in RS. destruct ((k mod S q =? 0) || (k =? 0) || (k =? K - 1))%nat eqn:RK.
      * unfold write at 1 in E. destruct (_ <? _)%nat eqn:WR; [|discriminate]. cbv zeta in E. assert (E1 : (map obj (recs k) ++ [obj k])%list = map obj (recs (S k))) by (rewrite RS, map_app; reflexivity). assert (E2 : (map mag (recs k) ++ [mag k])%list = map mag (recs (S k))) by (rewrite RS, map_app; reflexivity). rewrite E1, E2 in E. rewrite map_length in E. rewrite <- (map_length mag (recs (S k))) in E. 
        destruct ((10 <? length (map mag (recs (S k))))%nat && (nth (length (map mag (recs (S k)))) (map mag (recs (S k))) 0 =? nth (length (map mag (recs (S k))) - 1) (map mag (recs (S k))) 0)%nat && (nth (length (map mag (recs (S k)))) (map mag (recs (S k))) 0 =? nth (length (map mag (recs (S k))) - 2) (map mag (recs (S k))) 0)%nat) eqn:TS.
        -- injection E as <- <- <-. rewrite RS in TS. assert (RK' : recorded verbose K nh k = true) by (unfold recorded; rewrite V, QE; exact RK). assert (NZ : (K / nh <> 0)%nat) by (rewrite QE; discriminate). assert (NS := never_stuck k NZ V RN ltac:(lia) RK'). cbv zeta in NS. destruct (NS TS) as (N1 & N2 & N3). exists (S k). split; [lia|]. replace (S k - 1)%nat with k by lia. split; [exact AL|]. split; [reflexivity|]. split; [reflexivity|].
           assert (LF : limit (S k) = false). { unfold limit. change (magnets (xs (S k))) with (mag k). rewrite N2. destruct AL as (NP & AL). specialize (AL k ltac:(lia)). unfold limit in AL. lia. } rewrite LF, andb_false_r, app_nil_r. split; [left; split; [lia|auto]|reflexivity].
        -- apply STOP in E; auto.
      * apply STOP in E; auto; rewrite RS, app_nil_r; reflexivity.
    + unfold recorded in RS. cbn [andb] in RS. rewrite app_nil_r in RS. apply STOP in E; auto; now rewrite RS.
Qed.
(** ** C87 *)
(** a run that returns has gone through n iterations; it ends after K iterations or when the number of magnets reaches the number of sites or max_nMagnets, and at no other time *)
Theorem C87_run h x nums : (0 < N)%nat -> GPMO_backtracking ng N A b mm sd connect verbose K nh bt nadj maxn = (GDone h x, nums) ->
  exists n ys, (n <= K)%nat /\ back_path ng N A b mm sd connect nadj bt n ys /\ x = ys n /\
    (n = K \/ (N <= magnets x)%nat \/ (maxn <= magnets x)%nat) /\ (forall k, (0 < k < n)%nat -> (magnets (ys k) < N)%nat /\ (magnets (ys k) < maxn)%nat) /\
    nums = map (fun k => magnets (ys (S k))) (filter (recorded verbose K nh) (seq 0 n)) /\
    h = (map (fun k => / 2 * misfit ng N A b (ys (S k))) (filter (recorded verbose K nh) (seq 0 n)) ++ if (0 <? n)%nat && ((N <=? magnets x) || (maxn <=? magnets x))%nat then [/ 2 * misfit ng N A b x] else [])%list.
Proof.
  intros NP E. unfold GPMO_backtracking in E. destruct (loop_inv K 0 h x nums ltac:(lia)) as (n & Ln & AL & -> & -> & EN & ->); [split; [exact NP|intros; lia]|exact E|]. exists n, (fun k => xs k). assert (RN : running n). { destruct n as [|n]; [intros i Hi; lia|]. apply alive_running. now replace n with (S n - 1)%nat by lia. }
  split; [lia|]. split; [now apply bk_path|]. split; [reflexivity|]. split; [destruct EN as [(-> & _)|(_ & LM)]; [left; reflexivity|right; unfold limit in LM; lia]|]. split; [|split; [reflexivity|]].
  - intros k Hk. destruct AL as (_ & AL). specialize (AL k ltac:(lia)). unfold limit in AL. lia.
  - f_equal. unfold limit. destruct n as [|n]; [reflexivity|]. cbn [Nat.ltb Nat.leb andb]. change (S n - 1)%nat with (n - 0)%nat. rewrite Nat.sub_0_r. reflexivity.
Qed.
(** the number of magnets after k iterations has the parity of k (each iteration adds one and removes pairs) *)
Theorem C87_parity h x nums : (0 < N)%nat -> GPMO_backtracking ng N A b mm sd connect verbose K nh bt nadj maxn = (GDone h x, nums) ->
  exists n, (n <= K)%nat /\ Nat.even (magnets x) = Nat.even n /\ (magnets x <= n)%nat /\ (n = K \/ (N <= magnets x)%nat \/ (maxn <= magnets x)%nat).
Proof.
  intros NP E. unfold GPMO_backtracking in E. destruct (loop_inv K 0 h x nums ltac:(lia)) as (n & Ln & AL & -> & -> & EN & ->); [split; [exact NP|intros; lia]|exact E|]. exists n. assert (RN : running n). { destruct n as [|n]; [intros i Hi; lia|]. apply alive_running. now replace n with (S n - 1)%nat by lia. }
  destruct (bk_inv n RN) as (_ & _ & _ & EV & LE). split; [lia|]. split; [exact EV|]. split; [exact LE|]. destruct EN as [(-> & _)|(_ & LM)]; [left; reflexivity|right; unfold limit in LM; lia].
Qed.
End Loop.
Lemma no_sweep k : running k -> (k <= bt)%nat -> magnets (xs k) = k.
Proof.
  induction k as [|k IH]; intros RN L; [cbn [bk fst]; now apply magnets_0|]. assert (RN' : running k) by (intros i Hi; apply RN; lia). assert (ML := RN k ltac:(lia)). destruct (bk_inv k RN') as (I & _). specialize (IH RN' ltac:(lia)). rewrite bk_S. cbn [fst]. unfold iterb. destruct (Nat.leb_spec bt k) as [L'|L']; [lia|]. cbn [andb].
  destruct (choice (bg (st k))) as [j sg] eqn:E. destruct (choice_site (st k) j sg I ML E) as (C1 & C3 & C4). rewrite bplace_g, (place_eq _ _ _ _ _ _ j sg E), put_magnets by auto. now rewrite IH.
Qed.
(** reaching max_nMagnets = K in the last of K = q nhistory iterations writes two entries for it: one too many *)
Theorem C88_backtracking_overflow K q nh : (2 <= q)%nat -> (1 <= nh)%nat -> K = (q * nh)%nat -> (K <= N)%nat -> (K <= bt)%nat ->
  fst (GPMO_backtracking ng N A b mm sd connect true K nh bt nadj K) = GOutOfBounds.
Proof.
  intros Q NH EK KN KB. assert (KP : (2 <= K)%nat) by nia. assert (RN : running K). { intros i. induction i as [i IHi] using lt_wf_ind. intros Hi. rewrite no_sweep; [lia| |lia]. intros i' Hi'. apply IHi; lia. }
  assert (MG : forall i, (i <= K)%nat -> magnets (xs i) = i) by (intros i Hi; apply no_sweep; [intros i' Hi'; apply RN; lia|lia]).
  assert (LN : length (recs true K nh K) = (nh + 1)%nat). { unfold recs. rewrite C88_count by nia. rewrite EK. rewrite Nat.div_mul by lia. assert (D : ((q * nh - 1) / q = nh - 1 /\ (q * nh - 1) mod q = q - 1)%nat). { split; [symmetry; apply Nat.div_unique with (r := (q - 1)%nat)|symmetry; apply Nat.mod_unique with (q := (nh - 1)%nat)]; try lia; destruct nh; try lia; nia. } destruct D as (-> & ->). destruct (Nat.eqb_spec (q - 1) 0); lia. }
  assert (QE : (K / nh)%nat = q) by (rewrite EK; apply Nat.div_mul; lia).
  assert (MONO : forall k, (k < K)%nat -> (length (recs true K nh k) + (if recorded true K nh k then 1 else 0) <= nh + 1)%nat). { intros k Hk. rewrite <- LN. unfold recs. replace K with (k + (1 + (K - S k)))%nat at 4 by lia. rewrite !seq_app, !filter_app, !app_length. cbn [seq filter plus]. destruct (recorded true K nh k); cbn [length]; lia. }
  assert (LOOP : forall fuel k, (k + S fuel = K)%nat -> fst (back_loop ng N A mm sd connect true K nh bt nadj K (S fuel) k (map obj (recs true K nh k)) (map mag (recs true K nh k)) (snd (bk k)) (st k)) = GOutOfBounds).
  { induction fuel as [|fuel IH]; intros k HK; [|remember (S fuel) as fuel' eqn:FE]; cbn [back_loop]; cbv zeta; fold (GPMOModel.bplace ng N A mm sd (st k)).
    all: match goal with |- context [match ?q0 with Some _ => _ | None => (GCrash, _) end] => assert (SE : q0 = Some (st (S k))) end.
    1, 3: rewrite bk_S; cbn [fst]; unfold iterb; destruct (Nat.leb_spec bt k) as [L|L]; [lia|reflexivity].
    all: rewrite SE; clear SE; assert (RK := RN); assert (RN' : running (S k)) by (intros i Hi; apply RN; lia); rewrite (occ_eq k RN'), (obj_eq k RN'); assert (MK : mag k = S k) by (apply MG; lia); unfold records; rewrite QE; destruct q as [|q']; [lia|];
      assert (MO := MONO k ltac:(lia)); unfold recorded in MO; rewrite QE in MO; cbn [andb] in MO.
    - assert (KE : k = (K - 1)%nat) by lia. assert (RT : ((k mod S q' =? 0) || (k =? 0) || (k =? K - 1))%nat = true) by (rewrite <- KE, Nat.eqb_refl, orb_true_r; reflexivity). rewrite RT in *. unfold write at 1. rewrite map_length. destruct (Nat.ltb_spec (length (recs true K nh k)) (nh + 1)) as [LT|]; [|lia]. cbv zeta.
      assert (LR : length (recs true K nh k) = nh). { assert (R2 := recs_S true K nh k). replace (S k) with K in R2 by lia. unfold recorded in R2. cbn [andb] in R2. rewrite QE, RT in R2. rewrite R2, app_length in LN. cbn [length] in LN. lia. }
      match goal with |- context [if ?t then (GDone _ _, _) else _] => assert (TF : t = false) end. { apply test_false; [rewrite MK; discriminate|rewrite app_length, !map_length; reflexivity]. }
      rewrite TF. rewrite MK. destruct (Nat.leb_spec K (S k)) as [_|]; [|lia]. rewrite orb_true_r. unfold write. rewrite app_length, map_length. cbn [length]. destruct (Nat.ltb_spec (length (recs true K nh k) + 1) (nh + 1)) as [|_]; [lia|]. reflexivity.
    - assert (NL : (N <=? mag k)%nat || (K <=? mag k)%nat = false) by (rewrite MK; destruct (Nat.leb_spec N (S k)); [lia|]; destruct (Nat.leb_spec K (S k)); [lia|reflexivity]). specialize (IH (S k) ltac:(lia)). rewrite bk_S in IH at 1. cbn [snd] in IH. assert (R2 := recs_S true K nh k). unfold recorded in R2. cbn [andb] in R2. rewrite QE in R2.
      destruct ((k mod S q' =? 0) || (k =? 0) || (k =? K - 1))%nat.
      + unfold write at 1. rewrite map_length. destruct (Nat.ltb_spec (length (recs true K nh k)) (nh + 1)) as [LT|]; [|lia]. cbv zeta.
        match goal with |- context [if ?t then (GDone _ _, _) else _] => assert (TF : t = false) end. { apply test_false; [rewrite MK; discriminate|rewrite app_length, !map_length; reflexivity]. }
        rewrite TF, NL. rewrite R2, !map_app in IH. cbn [map] in IH. exact IH.
      + rewrite NL. rewrite R2, app_nil_r in IH. exact IH. }
  unfold GPMO_backtracking. destruct K as [|K']; [lia|]. apply (LOOP K' O). lia.
Qed.
(** ** What a path of the specification means *)
End Back.
Lemma pruned_binary N connect nadj x y : pruned N connect nadj x y -> binary N x -> binary N y /\ (forall j, y j <> 0 -> y j = x j).
Proof.
  induction 1 as [x|x y i j P IH O]; intros B; [split; auto|]. destruct (IH B) as ((B1 & B2 & B3) & S0). split.
  - split; [|split].
    + intros k. unfold put. destruct (k =? j)%nat; auto. destruct (k =? i)%nat; auto.
    + intros a c. unfold put. destruct (a =? j)%nat; [lra|]. destruct (a =? i)%nat; [lra|]. destruct (c =? j)%nat; [lra|]. destruct (c =? i)%nat; [lra|]. apply B2.
    + intros k Hk. unfold put. destruct (k =? j)%nat; auto. destruct (k =? i)%nat; auto.
  - intros k. unfold put. destruct (k =? j)%nat; [lra|]. destruct (k =? i)%nat; [lra|]. apply S0.
Qed.
Theorem C87_magnets ng N A b mm sd connect nadj bt n ys : back_path ng N A b mm sd connect nadj bt n ys -> forall k, (k <= n)%nat -> binary N (ys k) /\ (forall d j, sd = Some d -> ys k j <> 0 -> (j mod 3 = d)%nat).
Proof.
  intros (Z & STEP). induction k as [|k IH]; intros L.
  - split; [split; [auto|split; [intros i j; rewrite Z; lra|auto]]|]. intros d j _. rewrite Z. lra.
  - destruct IH as (B & D); [lia|]. destruct (STEP k ltac:(lia)) as (j & sg & (C1 & C2 & C3 & C4) & _ & S0). assert (BP : binary N (put (ys k) j sg)) by now apply put_binary. assert (DP : forall d i, sd = Some d -> put (ys k) j sg i <> 0 -> (i mod 3 = d)%nat). { intros d i SD. unfold put. destruct (Nat.eqb_spec i j) as [->|]; [rewrite SD in C2; auto|intros; now apply (D d)]. }
    destruct (_ && _); [|now rewrite S0]. destruct S0 as (P & _). destruct (pruned_binary _ _ _ _ _ P BP) as (B' & S'). split; [exact B'|]. intros d i SD NZ. apply (DP d i SD). now rewrite <- (S' i NZ).
Qed.

(** ** The neighbours *)
Lemma nearest_spec N n : forall dist U, (forall i, (i < N)%nat -> ~ In i U -> dist i < 10 ^ 10) -> (forall i, In i U -> dist i = 10 ^ 10 /\ (i < N)%nat) -> NoDup U -> (length U + n <= N)%nat ->
  let l := nearest N dist n in length l = n /\ NoDup l /\ (forall i, In i l -> (i < N)%nat /\ ~ In i U) /\ (forall a i, (a < n)%nat -> (i < N)%nat -> ~ In i U -> ~ In i (firstn a l) -> dist (nth a l O) <= dist i).
Proof.
  induction n as [|n IH]; intros dist U F1 F2 ND L; cbv zeta.
  - cbn. split; [reflexivity|]. split; [constructor|]. split; [intros i []|lia].
  - cbn [nearest]. cbv zeta. set (p := amin (N - 1) dist). assert (PN : (p < N)%nat) by (assert (K := amin_le (N - 1) dist); fold p in K; lia).
    assert (PM : forall i, (i < N)%nat -> dist p <= dist i) by (intros i Hi; apply amin_min; lia).
    assert (PU : ~ In p U). { intros IN. assert (EX : exists i, (i < N)%nat /\ ~ In i U). { assert (D : forall m, (m <= N)%nat -> (exists i, (i < m)%nat /\ ~ In i U) \/ (forall i, (i < m)%nat -> In i U)). { induction m as [|m IHm]; intros Lm; [right; intros; lia|]. destruct IHm as [(i & Hi & NI)|AI]; [lia|left; exists i; split; [lia|auto]|]. destruct (in_dec Nat.eq_dec m U) as [I|NI]; [|left; exists m; split; [lia|auto]]. right. intros i Hi. destruct (Nat.eq_dec i m) as [->|]; [exact I|apply AI; lia]. } destruct (D N (le_n N)) as [H|H]; [exact H|]. exfalso. assert (IC : incl (seq 0 N) U) by (intros i Hi; apply in_seq in Hi; apply H; lia). apply NoDup_incl_length in IC; [rewrite seq_length in IC; lia|apply seq_NoDup]. }
      destruct EX as (i & Hi & NI). assert (K1 := PM i Hi). assert (K2 := F1 i Hi NI). destruct (F2 p IN) as (K3 & _). lra. }
    assert (UE : forall i, i <> p -> upd dist p (10 ^ 10) i = dist i) by (intros i NE; unfold upd; destruct (Nat.eqb_spec i p); [contradiction|reflexivity]).
    destruct (IH (upd dist p (10 ^ 10)) (p :: U)) as (L1 & L2 & L3 & L4).
    + intros i Hi NI. rewrite UE by (intros ->; apply NI; left; auto). apply F1; auto. intros IU. apply NI. right. exact IU.
    + intros i [<-|IU]; [unfold upd; rewrite Nat.eqb_refl; auto|]. rewrite UE by (intros ->; contradiction). apply F2; auto.
    + constructor; auto.
    + cbn [length]. lia.
    + split; [cbn [length]; lia|]. split; [constructor; [intros IN; apply L3 in IN; apply IN; left; auto|exact L2]|]. split; [intros i [<-|IN]; [auto|]; apply L3 in IN; split; [apply IN|]; intros IU; apply IN; right; exact IU|].
      intros a i La Hi NI NF. destruct a as [|a]; [cbn [nth]; now apply PM|]. cbn [nth firstn] in *. assert (NP : i <> p) by (intros ->; apply NF; left; auto). rewrite <- (UE i NP). assert (NA : nth a (nearest N (upd dist p (10 ^ 10)) n) 0%nat <> p). { assert (IN : In (nth a (nearest N (upd dist p (10 ^ 10)) n) 0%nat) (nearest N (upd dist p (10 ^ 10)) n)) by (apply nth_In; lia). apply L3 in IN. intros E. apply IN. left. auto. } rewrite <- (UE _ NA). apply L4; [lia|auto| |].
      * intros [|]; [congruence|contradiction]. * intros IN. apply NF. right. exact IN.
Qed.
Lemma nearest_zero N n : forall dist, (0 < N)%nat -> (forall i, (i < N)%nat -> dist i = 10 ^ 10) -> forall a, nth a (nearest N dist n) O = O.
Proof.
  induction n as [|n IH]; intros dist NP F a; [now destruct a|]. cbn [nearest]. cbv zeta. assert (P0 : amin (N - 1) dist = O). { assert (K : forall m, (m < N)%nat -> amin m dist = O). { induction m as [|m IHm]; intros Lm; [reflexivity|]. cbn [amin]. cbv zeta. rewrite IHm by lia. rewrite !F by lia. destruct (Rlt_dec _ _); [lra|reflexivity]. } apply K. lia. }
  rewrite P0. destruct a as [|a]; [reflexivity|]. cbn [nth]. apply IH; [exact NP|]. intros i Hi. unfold upd. destruct (i =? 0)%nat; auto.
Qed.
Lemma nearest_app N n m : forall dist, exists dist', nearest N dist (n + m) = (nearest N dist n ++ nearest N dist' m)%list /\ (forall i, dist' i = if in_dec Nat.eq_dec i (nearest N dist n) then 10 ^ 10 else dist i).
Proof.
  induction n as [|n IH]; intros dist; [exists dist; split; [reflexivity|intros; reflexivity]|]. cbn [nearest plus]. cbv zeta. set (p := amin (N - 1) dist). destruct (IH (upd dist p (10 ^ 10))) as (d' & E & D). exists d'. split; [cbn [app]; now rewrite E|]. intros i. rewrite D. set (l := nearest N (upd dist p (10 ^ 10)) n).
  destruct (in_dec Nat.eq_dec i l) as [I|NI], (in_dec Nat.eq_dec i (p :: l)) as [I'|NI']; auto.
  - exfalso. apply NI'. right. exact I. - destruct I' as [I'|I']; [|contradiction]. unfold upd. destruct (Nat.eqb_spec i p); [reflexivity|congruence]. - unfold upd. destruct (Nat.eqb_spec i p) as [EQ|]; [exfalso; apply NI'; left; auto|reflexivity].
Qed.
(** row j of the connectivity matrix: the sites by increasing distance from site j, each once; further entries are site 0 *)
Theorem C88_connectivity N d j : (0 < N <= 2000)%nat -> (forall i, (i < N)%nat -> d i j < 10 ^ 10) ->
  (forall a, (connectivity N d j a < N)%nat) /\ (forall i, (i < N)%nat -> exists a, (a < N)%nat /\ connectivity N d j a = i) /\ (forall a c, (a < c < N)%nat -> connectivity N d j a <> connectivity N d j c /\ d (connectivity N d j a) j <= d (connectivity N d j c) j) /\ (forall a, (N <= a < 2000)%nat -> connectivity N d j a = O).
Proof.
  intros (NP & L) F. unfold connectivity. revert L. generalize 2000%nat. intros M L. replace (nearest N (fun i => d i j) M) with (nearest N (fun i => d i j) (N + (M - N))) by (f_equal; lia). set (dist := fun i => d i j). destruct (nearest_app N N (M - N) dist) as (d' & E & D). fold dist. rewrite E. destruct (nearest_spec N N dist []) as (L1 & L2 & L3 & L4); [intros i Hi _; now apply F|intros i []|constructor|cbn; lia|]. set (l := nearest N dist N) in *.
  assert (IC : incl l (seq 0 N)) by (intros i Hi; apply L3 in Hi; apply in_seq; lia). assert (CI : incl (seq 0 N) l) by (apply NoDup_length_incl; [exact L2|rewrite seq_length; lia|exact IC]).
  assert (Z : forall a, nth a (nearest N d' (M - N)) O = O). { apply nearest_zero; [exact NP|]. intros i Hi. rewrite D. destruct (in_dec Nat.eq_dec i l) as [|NI]; [reflexivity|]. exfalso. apply NI, CI, in_seq. lia. }
  assert (N1 : forall a, (a < N)%nat -> nth a (l ++ nearest N d' (M - N)) O = nth a l O) by (intros a Ha; apply app_nth1; lia). assert (N2 : forall a, (N <= a)%nat -> nth a (l ++ nearest N d' (M - N)) O = O) by (intros a Ha; rewrite app_nth2 by lia; apply Z).
  split; [|split; [|split]].
  - intros a. destruct (Nat.lt_ge_cases a N) as [Ha|Ha]; [|rewrite N2 by exact Ha; exact NP]. rewrite N1 by exact Ha. apply L3, nth_In. lia.
  - intros i Hi. destruct (In_nth l i O (CI i ltac:(apply in_seq; lia))) as (a & Ha & Ea). exists a. split; [lia|]. rewrite N1 by lia. exact Ea.
  - intros a c H. rewrite !N1 by lia. assert (ND := proj1 (NoDup_nth l O) L2 a c ltac:(lia) ltac:(lia)). assert (NE : nth a l O <> nth c l O) by (intros Q; apply ND in Q; lia). split; [exact NE|]. change (dist (nth a l O) <= dist (nth c l O)). apply L4; [lia|apply L3, nth_In; lia|intros []|].
    intros IN. apply In_nth with (d := O) in IN. destruct IN as (e & He & Ee). rewrite firstn_length_le in He by lia. assert (Ee' : nth e l O = nth c l O) by (rewrite <- Ee; rewrite <- (firstn_skipn a l) at 1; apply app_nth1; rewrite firstn_length_le; lia). apply (proj1 (NoDup_nth l O) L2) in Ee'; lia.
  - intros a Ha. apply N2. lia.
Qed.
(** a run with backtracking that meets the hypotheses of C87 *)
Example C87_meets : let con := connectivity 1 (fun _ _ => 0) in moderate 1 1 qA (fun _ => 1) (fun _ => 0) /\ (forall i a, (i < 1)%nat -> (con i a < 1)%nat) /\ exists h x nums, GPMO_backtracking 1 1 qA (fun _ => 1) (fun _ => 0) None con false 1 1 1 1 5 = (GDone h x, nums).
Proof.
  intros con. split; [exact q_moderate|]. split; [intros i a _; apply (C88_connectivity 1 (fun _ _ => 0) i); [lia|intros; cbv beta; lra]|]. unfold GPMO_backtracking. cbn [back_loop]. cbv zeta. change (1 <=? 0)%nat with false. cbv iota. unfold write at 1. cbn [length Nat.ltb Nat.leb Nat.add app].
  match goal with |- context [if ?c then _ else _] => destruct c end; do 3 eexists; reflexivity.
Qed.
