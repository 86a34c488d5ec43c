(** C101: Quasisymmetry.J measures the departure of |B| from symmetry. *)
From Coq Require Import Reals List ZArith Lia Lra Bool.
Import ListNotations.
From Verif Require Import ListAux VecAux BoozerModel BoozerProps.
Open Scope R_scope.

(** * Specification *)

(** the field strength given by the output of booz_xform *)
Definition angle (mode : Z * Z) (theta zeta : R) : R := IZR (fst mode) * theta - IZR (snd mode) * zeta.
Definition field (sp : spectrum) (theta zeta : R) : R :=
  rsuml (map (fun p => snd p * cos (angle (fst p) theta zeta)) (combine (modes sp) (bmnc sp))) +
  rsuml (map (fun p => snd p * sin (angle (fst p) theta zeta)) (combine (modes sp) (bmns sp))).
(** a function of the two angles that depends on [M theta + c zeta] only *)
Definition depends_only_on (M c : R) (B : R -> R -> R) : Prop :=
  forall t z t' z', M * t + c * z = M * t' + c * z' -> B t z = B t' z'.

(** the modes of booz_xform are distinct, m >= 0, and n >= 0 if m = 0 *)
Definition canonical (sp : spectrum) : Prop :=
  (0 < nfp sp)%Z /\ length (bmnc sp) = length (modes sp) /\ NoDup (modes sp) /\
  forall p, In p (modes sp) -> (0 <= fst p)%Z /\ (fst p = 0%Z -> (0 <= snd p)%Z).
Definition stellarator_symmetric (sp : spectrum) : Prop := forall b, In b (bmns sp) -> b = 0.

(** M xn + nfp N xm = 0 *)
Definition sym (q : qs) (nf : Z) (p : Z * Z) : bool := (hm q * snd p + nf * hn q * fst p =? 0)%Z.
Definition helicity_ok (q : qs) : Prop := (hm q = 0 \/ hm q = 1)%Z /\ (hm q, hn q) <> (0, 0)%Z.
Definition breaking (q : qs) (sp : spectrum) : list R :=
  map snd (filter (fun p => negb (sym q (nfp sp) (fst p))) (combine (modes sp) (bmnc sp))).
Definition keeping (q : qs) (sp : spectrum) : list R :=
  map snd (filter (fun p => sym q (nfp sp) (fst p)) (combine (modes sp) (bmnc sp))).
Definition sumsq (l : list R) : R := rsuml (map (fun x => x * x) l).
Definition scale_of (q : qs) (sp : spectrum) (b : R) : Prop :=
  match norm q with
  | B00 => hd_error (combine (modes sp) (bmnc sp)) = Some ((0%Z, 0%Z), b)
  | Symmetric => b = sqrt (sumsq (keeping q sp))
  | OtherNorm => False
  end.

(** * Independence of cosines *)
Lemma rsum_ext {A} (f g : A -> R) l : (forall a, In a l -> f a = g a) -> rsuml (map f l) = rsuml (map g l).
Proof. intros H. f_equal. apply map_ext_in, H. Qed.

Lemma cos_abs k h : cos (IZR k * h) = cos (IZR (Z.abs k) * h).
Proof.
  destruct (Z.abs_eq_or_opp k) as [->| ->]; [auto|]. rewrite opp_IZR. replace (- IZR k * h) with (- (IZR k * h)) by ring. now rewrite cos_neg.
Qed.

Lemma cos_indep {A} (freq : A -> Z) : forall l, NoDup (map (fun p => Z.abs (freq p)) l) ->
  forall a : A -> R, (forall t, rsuml (map (fun p => a p * cos (IZR (freq p) * t)) l) = 0) -> forall p, In p l -> a p = 0.
Proof.
  induction l as [|p1 r IH]; intros ND a H; [intros p []|]. cbn in ND. inversion ND as [|? ? NI ND']; subst.
  assert (exists h, 0 < h /\ forall p, In p (p1 :: r) -> IZR (Z.abs (freq p)) * h <= PI) as (h & Ph & Hh).
  { assert (exists K, (0 < K)%Z /\ forall p, In p (p1 :: r) -> (Z.abs (freq p) <= K)%Z) as (K & PK & HK).
    { generalize (p1 :: r). induction l as [|x l [K [PK HK]]]; [exists 1%Z; split; [lia|intros p []]|].
      exists (Z.max K (Z.abs (freq x))). split; [lia|]. intros p [<-|I]; [lia|]. specialize (HK p I). lia. }
    assert (0 < IZR K) by now apply IZR_lt. exists (PI / IZR K). pose proof PI_RGT_0. split; [apply Rdiv_lt_0_compat; lra|].
    intros p I. specialize (HK p I). apply IZR_le in HK. apply Rle_trans with (IZR K * (PI / IZR K)); [apply Rmult_le_compat_r; [left; apply Rdiv_lt_0_compat; lra|auto]|].
    right. field. lra. }
  assert (Hr : forall p, In p r -> a p = 0).
  { intros p I. assert (Z0 : a p * (2 * cos (IZR (freq p) * h) - 2 * cos (IZR (freq p1) * h)) = 0).
    { apply (IH ND' (fun p => a p * (2 * cos (IZR (freq p) * h) - 2 * cos (IZR (freq p1) * h)))); auto.
      intros t. pose proof (H (t + h)) as H1. pose proof (H (t - h)) as H2. pose proof (H t) as H3. cbn in H1, H2, H3.
      assert (E : rsuml (map (fun p => a p * (2 * cos (IZR (freq p) * h) - 2 * cos (IZR (freq p1) * h)) * cos (IZR (freq p) * t)) r)
        = rsuml (map (fun p => a p * cos (IZR (freq p) * (t + h))) r) + rsuml (map (fun p => a p * cos (IZR (freq p) * (t - h))) r)
          - 2 * cos (IZR (freq p1) * h) * rsuml (map (fun p => a p * cos (IZR (freq p) * t)) r)).
      { rewrite <- rsuml_map_scale, <- rsuml_map_plus, <- rsuml_map_minus. apply rsum_ext. intros x _.
        replace (IZR (freq x) * (t + h)) with (IZR (freq x) * t + IZR (freq x) * h) by ring.
        replace (IZR (freq x) * (t - h)) with (IZR (freq x) * t - IZR (freq x) * h) by ring. rewrite cos_plus, cos_minus. ring. }
      rewrite E. replace (IZR (freq p1) * (t + h)) with (IZR (freq p1) * t + IZR (freq p1) * h) in H1 by ring.
      replace (IZR (freq p1) * (t - h)) with (IZR (freq p1) * t - IZR (freq p1) * h) in H2 by ring. rewrite cos_plus in H1. rewrite cos_minus in H2.
      set (S1 := rsuml (map (fun p => a p * cos (IZR (freq p) * (t + h))) r)) in *. set (S2 := rsuml (map (fun p => a p * cos (IZR (freq p) * (t - h))) r)) in *.
      set (S3 := rsuml (map (fun p => a p * cos (IZR (freq p) * t)) r)) in *. set (c := cos (IZR (freq p1) * h)) in *.
      replace S3 with (- (a p1 * cos (IZR (freq p1) * t))) by lra.
      replace S1 with (- (a p1 * (cos (IZR (freq p1) * t) * c - sin (IZR (freq p1) * t) * sin (IZR (freq p1) * h)))) by lra.
      replace S2 with (- (a p1 * (cos (IZR (freq p1) * t) * c + sin (IZR (freq p1) * t) * sin (IZR (freq p1) * h)))) by lra. ring. }
    apply Rmult_integral in Z0 as [Z0|Z0]; [auto|]. exfalso.
    assert (Ne : Z.abs (freq p) <> Z.abs (freq p1)). { intros Q. apply NI. rewrite <- Q. now apply (in_map (fun p => Z.abs (freq p))). }
    assert (Ec : cos (IZR (Z.abs (freq p)) * h) = cos (IZR (Z.abs (freq p1)) * h)) by (rewrite <- !cos_abs; lra).
    pose proof (Hh p (or_intror I)) as B1. pose proof (Hh p1 (or_introl eq_refl)) as B2.
    assert (P1 : 0 <= IZR (Z.abs (freq p)) * h) by (apply Rmult_le_pos; [apply (IZR_le 0); lia|lra]).
    assert (P2 : 0 <= IZR (Z.abs (freq p1)) * h) by (apply Rmult_le_pos; [apply (IZR_le 0); lia|lra]).
    destruct (Z.lt_trichotomy (Z.abs (freq p)) (Z.abs (freq p1))) as [L|[L|L]]; [|auto|]; apply IZR_lt in L.
    - assert (IZR (Z.abs (freq p)) * h < IZR (Z.abs (freq p1)) * h) by (apply Rmult_lt_compat_r; auto). pose proof (cos_decreasing_1 _ _ P1 B1 P2 B2 H0). lra.
    - assert (IZR (Z.abs (freq p1)) * h < IZR (Z.abs (freq p)) * h) by (apply Rmult_lt_compat_r; auto). pose proof (cos_decreasing_1 _ _ P2 B2 P1 B1 H0). lra. }
  intros p [<-|I]; [|auto]. specialize (H 0). cbn in H. rewrite Rmult_0_r, cos_0 in H.
  rewrite (rsuml_map_zero (fun p => a p * cos (IZR (freq p) * 0))) in H by (intros x X; rewrite (Hr x X); ring). lra.
Qed.

Lemma modes_indep {A} (mode : A -> Z * Z) l : NoDup (map mode l) -> (forall p, In p l -> (0 <= fst (mode p))%Z /\ (fst (mode p) = 0%Z -> (0 <= snd (mode p))%Z)) ->
  forall a : A -> R, (forall t z, rsuml (map (fun p => a p * cos (angle (mode p) t z)) l) = 0) -> forall p, In p l -> a p = 0.
Proof.
  intros ND C a H.
  assert (exists K, (0 < K)%Z /\ forall p, In p l -> (2 * Z.abs (snd (mode p)) < K)%Z) as (K & PK & HK).
  { clear. induction l as [|x l [K [PK HK]]]; [exists 1%Z; split; [lia|intros p []]|].
    exists (Z.max K (2 * Z.abs (snd (mode x)) + 1)). split; [lia|]. intros p [<-|I]; [lia|]. specialize (HK p I). lia. }
  apply (cos_indep (fun p => fst (mode p) * K - snd (mode p))%Z).
  - clear H a. induction l as [|x l IH]; cbn [map In] in *; [constructor|]. inversion ND as [|? ? NI ND']; subst. constructor; [|apply IH; auto].
    intros I. apply in_map_iff in I as (y & E & Iy). apply NI. apply in_map_iff. exists y. split; auto.
    destruct (C x (or_introl eq_refl)) as [C1 C2]. destruct (C y (or_intror Iy)) as [D1 D2]. pose proof (HK x (or_introl eq_refl)) as K1. pose proof (HK y (or_intror Iy)) as K2.
    clear - C1 C2 D1 D2 K1 K2 E PK. revert C1 C2 D1 D2 K1 K2 E. destruct (mode x) as [m n], (mode y) as [m' n']. cbn [fst snd]. intros C1 C2 D1 D2 K1 K2 E.
    assert (Q : (m = m' /\ n = n') \/ (m = 0 /\ m' = 0 /\ n = - n')%Z).
    { destruct (Z.abs_eq_cases _ _ E) as [Q|Q].
      - assert ((m' - m) * K = n' - n)%Z by lia. assert (m' = m). { clear E Q. assert (- K < n' - n < K)%Z by lia. destruct (Z.lt_trichotomy m m') as [L|[L|L]]; [nia|auto|nia]. } subst. left. lia.
      - assert ((m' + m) * K = n' + n)%Z by lia. assert (m' + m = 0)%Z. { clear E Q. assert (- K < n' + n < K)%Z by lia. nia. } right. nia. }
    destruct Q as [[-> ->]|(-> & -> & ->)]; [auto|]. specialize (C2 eq_refl). specialize (D2 eq_refl). f_equal. lia.
  - intros t. rewrite <- (H (IZR K * t) t). apply rsum_ext. intros x _. unfold angle. rewrite minus_IZR, mult_IZR. do 2 f_equal. ring.
Qed.

(** * The code's masks *)
Lemma symmetric_sym q nf p : (0 < nf)%Z -> helicity_ok q -> symmetric q nf p = sym q nf p.
Proof.
  intros Pn [Hm Hz]. unfold symmetric, sym. assert (P : 0 < IZR nf) by now apply IZR_lt.
  assert (R0 : forall x z, (x = 0 <-> z = 0%Z) -> Reqb x 0 = (z =? 0)%Z).
  { intros x z X. apply eq_true_iff_eq. now rewrite Reqb_true, Z.eqb_eq. }
  assert (Q : forall x, IZR x / IZR nf = 0 <-> x = 0%Z).
  { intros x. split; [|intros ->; field; lra]. intros H. apply eq_IZR. replace (IZR x) with (IZR x / IZR nf * IZR nf) by (field; lra). rewrite H. ring. }
  destruct p as [m x]. cbn [fst snd]. destruct (Z.eqb_spec (hn q) 0) as [N0|N0].
  - rewrite N0. apply R0. rewrite Q. destruct Hm as [Hm|Hm]; [exfalso; apply Hz; congruence|]. rewrite Hm. split; lia.
  - destruct (Z.eqb_spec (hm q) 0) as [M0|M0].
    + rewrite M0. apply R0. split; [intros H; apply eq_IZR in H; subst; lia|]. intros H. assert (m = 0%Z) by nia. now subst.
    + destruct Hm as [Hm|Hm]; [congruence|]. rewrite Hm. apply R0. 
      assert (IZR m * IZR (hn q) + IZR x / IZR nf * IZR 1 = IZR (1 * x + nf * hn q * m) / IZR nf) as ->.
      { rewrite plus_IZR, !mult_IZR. field. lra. }
      apply Q.
Qed.
Lemma select_filter f : forall (ms : list (Z * Z)) bs, length bs = length ms ->
  select (map f ms) bs = map snd (filter (fun p => f (fst p)) (combine ms bs)).
Proof.
  induction ms as [|p ms IH]; intros [|b bs] L; cbn in *; try discriminate; [auto|]. rewrite IH by lia. destruct (f p); reflexivity.
Qed.
Lemma select_map g : forall mask l, select mask (map g l) = map g (select mask l).
Proof. induction mask as [|[|] m IH]; intros [|x l]; cbn; auto. now rewrite IH. Qed.

Lemma surface_error_eq q sp u b : canonical sp -> helicity_ok q -> scale_of q sp b ->
  surface_error q sp u = match wt q with
    | Even => Some (map (fun x => x / b) (breaking q sp))
    | Stellopt => Some (map (fun x => x / b / (u * u)) (breaking q sp))
    | StelloptOrnl => Some [sqrt (sumsq (map (fun x => x / b) (breaking q sp)))]
    | OtherWeight => None end.
Proof.
  intros (Pn & Ln & _) Hq Hs. unfold surface_error. cbv zeta.
  replace (negb _) with false by (destruct Hq as [[->| ->] _]; reflexivity).
  assert (M1 : map (symmetric q (nfp sp)) (modes sp) = map (sym q (nfp sp)) (modes sp)) by (apply map_ext; intros p; now apply symmetric_sym).
  rewrite M1, map_map. rewrite (select_filter (sym q (nfp sp))) by auto. fold (keeping q sp).
  assert (S1 : match norm q with
         | B00 => match modes sp, bmnc sp with
                  | (m, n) :: _, b :: _ => if ((m =? 0) && (n =? 0))%Z then Some b else None
                  | _, _ => None
                  end
         | Symmetric => Some (sqrt (rsuml (map (fun x => x * x) (keeping q sp))))
         | OtherNorm => None
         end = Some b).
  { unfold scale_of in Hs. destruct (norm q); [|now rewrite Hs|contradiction]. destruct (modes sp) as [|[m n] ms], (bmnc sp) as [|x bs]; cbn in Hs; try discriminate.
    injection Hs as -> -> ->. reflexivity. }
  rewrite S1. rewrite !select_map, (select_filter (fun p => negb (sym q (nfp sp) p))) by auto. fold (breaking q sp). destruct (wt q); cbv zeta.
  - reflexivity.
  - rewrite (map_map (fun x => x / b)). reflexivity.
  - reflexivity.
  - reflexivity.
Qed.

Lemma sumsq_zero l : sqrt (sumsq l) = 0 <-> forall x, In x l -> x = 0.
Proof.
  unfold sumsq. assert (P : forall l, 0 <= rsuml (map (fun x => x * x) l)).
  { intros l'. apply rsuml_ge0. intros a I. apply in_map_iff in I as (x & <- & _). apply Rle_0_sqr. }
  split.
  - intros H. apply sqrt_eq_0 in H; [|auto]. induction l as [|a l IH]; [intros x []|]. cbn in H. pose proof (P l). pose proof (Rle_0_sqr a) as Q. unfold Rsqr in Q.
    intros x [<-|I]; [|apply IH; [lra|auto]]. assert (a * a = 0) by lra. apply Rmult_integral in H1. tauto.
  - intros H. rewrite (rsuml_map_zero (fun x => x * x)); [apply sqrt_0|]. intros a I. rewrite (H a I). ring.
Qed.

(** the symmetry-breaking amplitudes vanish exactly if the field depends on M theta + nfp N zeta only *)
Lemma field_cos sp : stellarator_symmetric sp -> forall t z, field sp t z = rsuml (map (fun p => snd p * cos (angle (fst p) t z)) (combine (modes sp) (bmnc sp))).
Proof.
  intros H t z. unfold field. rewrite (rsuml_map_zero (fun p => snd p * sin (angle (fst p) t z))); [ring|]. intros [m b] I. apply in_combine_r in I. rewrite (H b I). cbn; ring.
Qed.

Lemma combine_modes sp : length (bmnc sp) = length (modes sp) -> map fst (combine (modes sp) (bmnc sp)) = modes sp.
Proof. generalize (modes sp), (bmnc sp). induction l as [|m ms IH]; intros [|b bs] H; cbn in *; try discriminate; [auto|]. rewrite IH by lia. reflexivity. Qed.

Lemma breaking_iff q sp : canonical sp -> stellarator_symmetric sp -> helicity_ok q ->
  ((forall x, In x (breaking q sp) -> x = 0) <-> depends_only_on (IZR (hm q)) (IZR (nfp sp) * IZR (hn q)) (field sp)).
Proof.
  intros (Pn & Ln & ND & C) SS [Hm Hz]. set (l := combine (modes sp) (bmnc sp)).
  assert (Ml : map fst l = modes sp) by now apply combine_modes. set (w := fun p : Z * Z => (hm q * snd p + nfp sp * hn q * fst p)%Z).
  split.
  - intros H t z t' z' Ph. rewrite !field_cos by auto. fold l. apply rsum_ext. intros p I.
    destruct (sym q (nfp sp) (fst p)) eqn:Sy.
    + f_equal. unfold sym in Sy. apply Z.eqb_eq in Sy. f_equal. unfold angle. destruct p as [[m x] b]. cbn [fst snd] in *.
      destruct Hm as [Hm|Hm]; rewrite Hm in *.
      * assert (m = 0%Z) as ->. { assert (hn q <> 0)%Z by (intros Q; apply Hz; congruence). nia. }
        assert (Q : (IZR (nfp sp) * IZR (hn q)) * z = (IZR (nfp sp) * IZR (hn q)) * z') by lra.
        apply Rmult_eq_reg_l in Q; [rewrite Q; ring|]. rewrite <- mult_IZR. apply not_0_IZR. assert (hn q <> 0)%Z by (intros Q'; apply Hz; congruence). nia.
      * assert (x = - (nfp sp * hn q * m))%Z as -> by lia. rewrite opp_IZR, !mult_IZR.
        replace (IZR m * t - - (IZR (nfp sp) * IZR (hn q) * IZR m) * z) with (IZR m * (1 * t + IZR (nfp sp) * IZR (hn q) * z)) by ring. rewrite Ph. ring.
    + rewrite (H (snd p)); [ring|]. unfold breaking. apply in_map. apply filter_In. split; [auto|]. now rewrite Sy.
  - intros H x I. unfold breaking in I. fold l in I. apply in_map_iff in I as (p & <- & I). apply filter_In in I as [I Sy]. apply negb_true_iff in Sy.
    unfold sym in Sy. apply Z.eqb_neq in Sy. fold (w (fst p)) in Sy.
    assert (G : forall h, snd p * (2 * (cos (h * IZR (w (fst p))) - 1)) = 0).
    { intros h. apply (modes_indep fst l) with (a := fun p => snd p * (2 * (cos (h * IZR (w (fst p))) - 1))); auto.
      - now rewrite Ml.
      - intros p' I'. apply C. rewrite <- Ml. now apply in_map.
      - intros t z.
        pose proof (H (t - IZR (nfp sp) * IZR (hn q) * h) (z + IZR (hm q) * h) t z ltac:(ring)) as H1.
        pose proof (H (t + IZR (nfp sp) * IZR (hn q) * h) (z - IZR (hm q) * h) t z ltac:(ring)) as H2.
        rewrite !field_cos in H1, H2 by auto. fold l in H1, H2.
        set (F := rsuml (map (fun p => snd p * cos (angle (fst p) t z)) l)) in *.
        transitivity (rsuml (map (fun p => snd p * cos (angle (fst p) (t - IZR (nfp sp) * IZR (hn q) * h) (z + IZR (hm q) * h))) l)
                    + rsuml (map (fun p => snd p * cos (angle (fst p) (t + IZR (nfp sp) * IZR (hn q) * h) (z - IZR (hm q) * h))) l) - 2 * F); [|lra].
        unfold F. rewrite <- rsuml_map_scale, <- rsuml_map_plus, <- rsuml_map_minus. apply rsum_ext. intros p' _.
        assert (A1 : angle (fst p') (t - IZR (nfp sp) * IZR (hn q) * h) (z + IZR (hm q) * h) = angle (fst p') t z - h * IZR (w (fst p'))).
        { unfold angle, w. rewrite plus_IZR, !mult_IZR. ring. }
        assert (A2 : angle (fst p') (t + IZR (nfp sp) * IZR (hn q) * h) (z - IZR (hm q) * h) = angle (fst p') t z + h * IZR (w (fst p'))).
        { unfold angle, w. rewrite plus_IZR, !mult_IZR. ring. }
        rewrite A1, A2, cos_plus, cos_minus. ring. }
    specialize (G (PI / IZR (w (fst p)))). assert (N : IZR (w (fst p)) <> 0) by now apply not_0_IZR.
    replace (PI / IZR (w (fst p)) * IZR (w (fst p))) with PI in G by (field; auto). rewrite cos_PI in G. lra.
Qed.

(** * Theorems *)

(** what J lists: the amplitudes of the modes with M xn + nfp N xm <> 0, in the order of booz_xform, divided by the
    normalisation; or one number, the root of the sum of their squares *)
Theorem C101_values : forall q sp u b, canonical sp -> helicity_ok q -> scale_of q sp b ->
  surface_error q sp u = match wt q with
    | Even => Some (map (fun x => x / b) (breaking q sp))
    | Stellopt => Some (map (fun x => x / b / (u * u)) (breaking q sp))
    | StelloptOrnl => Some [sqrt (sumsq (map (fun x => x / b) (breaking q sp)))]
    | OtherWeight => None end.
Proof. exact surface_error_eq. Qed.

(** J vanishes exactly on the fields whose strength depends on M theta + nfp N zeta only *)
Theorem C101_zero_iff_symmetric : forall q sp u b, canonical sp -> stellarator_symmetric sp -> helicity_ok q -> scale_of q sp b -> b <> 0 -> wt q <> OtherWeight -> u <> 0 ->
  exists l, surface_error q sp u = Some l /\
    ((forall x, In x l -> x = 0) <-> depends_only_on (IZR (hm q)) (IZR (nfp sp) * IZR (hn q)) (field sp)).
Proof.
  intros q sp u b C SS Hq Hs Hb Hw Hu. rewrite (surface_error_eq q sp u b) by auto. pose proof (breaking_iff q sp C SS Hq) as BI. setoid_rewrite <- BI. clear BI.
  destruct (wt q); [| | |congruence]; eexists; (split; [reflexivity|]).
  - split; intros H x I; [|apply in_map_iff in I as (y & <- & I); rewrite (H y I); field; auto].
    pose proof (H _ (in_map (fun x => x / b) _ _ I)) as Q. cbn in Q. replace x with (x / b * b) by (field; auto). rewrite Q. ring.
  - split; intros H x I; [|apply in_map_iff in I as (y & <- & I); rewrite (H y I); field; auto].
    pose proof (H _ (in_map (fun x => x / b / (u * u)) _ _ I)) as Q. cbn in Q. replace x with (x / b / (u * u) * (u * u) * b) by (field; auto). rewrite Q. ring.
  - split; intros H.
    + specialize (H _ (or_introl eq_refl)). rewrite sumsq_zero in H. intros x I. pose proof (H _ (in_map (fun x => x / b) _ _ I)) as Q. cbn in Q.
      replace x with (x / b * b) by (field; auto). rewrite Q. ring.
    + intros x [<-|[]]. apply sumsq_zero. intros y I. apply in_map_iff in I as (z & <- & I). rewrite (H z I). field; auto.
Qed.

(** The class documents the symmetry B(M theta - nfp N zeta).  That is what is measured if M = 0 or N = 0 ... *)
Theorem C101_documented_symmetry : forall q sp u b, canonical sp -> stellarator_symmetric sp -> helicity_ok q -> scale_of q sp b -> b <> 0 -> wt q <> OtherWeight -> u <> 0 ->
  (hm q = 0 \/ hn q = 0)%Z ->
  exists l, surface_error q sp u = Some l /\
    ((forall x, In x l -> x = 0) <-> depends_only_on (IZR (hm q)) (- (IZR (nfp sp) * IZR (hn q))) (field sp)).
Proof.
  intros q sp u b C SS Hq Hs Hb Hw Hu Hz. destruct (C101_zero_iff_symmetric q sp u b C SS Hq Hs Hb Hw Hu) as (l & E & I). exists l. split; [auto|]. rewrite I.
  unfold depends_only_on. split; intros H t z t' z' Ph; apply H; destruct Hz as [Hz|Hz]; rewrite Hz in *; lra.
Qed.
(** ... but for quasi-helical symmetry the sign of N is reversed: a field of exactly the documented form is reported
    as broken with its full amplitude, and the field of the opposite helicity as perfect *)
Definition helical (nf n : Z) (b0 b1 : R) : spectrum := mkSp nf [(0, 0); (1, nf * n)]%Z [b0; b1] [].
Lemma helical_canonical nf n b0 b1 : (0 < nf)%Z -> canonical (helical nf n b0 b1).
Proof.
  intros P. split; [auto|]. split; [reflexivity|]. split; [repeat constructor; cbn; intuition discriminate|].
  intros p [<-|[<-|[]]]; cbn; lia.
Qed.
Theorem C101_documented_sign_is_reversed : forall nf n b0 b1 nrm, (0 < nf)%Z -> n <> 0%Z -> 0 < b0 -> b1 <> 0 -> nrm <> OtherNorm ->
  let q := mkQ 1 n nrm Even in
  depends_only_on 1 (- (IZR nf * IZR n)) (field (helical nf n b0 b1)) /\
  surface_error q (helical nf n b0 b1) 1 = Some [b1 / b0] /\
  surface_error q (helical nf (- n) b0 b1) 1 = Some [].
Proof.
  intros nf n b0 b1 nrm Pn Nn P0 N1 Hn q.
  assert (Hq : helicity_ok q) by (split; [now right|intros [=]]).
  assert (S1 : sym q nf (1, nf * n)%Z = false) by (unfold sym; cbn [hm hn q fst snd]; apply Z.eqb_neq; nia).
  assert (S2 : sym q nf (1, nf * - n)%Z = true) by (unfold sym; cbn [hm hn q fst snd]; apply Z.eqb_eq; nia).
  assert (S0 : sym q nf (0, 0)%Z = true) by (unfold sym; cbn [hm hn q fst snd]; apply Z.eqb_eq; nia).
  split; [|split].
  - intros t z t' z' H. unfold field, helical, angle. cbn [combine modes bmnc bmns map rsuml fst snd]. rewrite !mult_IZR.
    replace (1 * t - IZR nf * IZR n * z) with (1 * t' - IZR nf * IZR n * z') by lra. rewrite !Rmult_0_l, Rminus_0_r. reflexivity.
  - assert (K : keeping q (helical nf n b0 b1) = [b0]) by (unfold keeping, helical; cbn [combine modes bmnc nfp filter fst]; now rewrite S0, S1).
    rewrite (surface_error_eq q _ 1 b0); [|now apply helical_canonical|auto|].
    + cbn [wt q]. unfold breaking, helical. cbn [combine modes bmnc nfp filter fst]. rewrite S0, S1. reflexivity.
    + unfold scale_of, q, norm. destruct nrm; [reflexivity| |congruence]. fold q. rewrite K. unfold sumsq; cbn. rewrite Rplus_0_r. symmetry. apply sqrt_square. lra.
  - rewrite (surface_error_eq q _ 1 (match nrm with B00 => b0 | _ => sqrt (sumsq (keeping q (helical nf (- n) b0 b1))) end)); [|now apply helical_canonical|auto|].
    + cbn [wt q]. unfold breaking, helical. cbn [combine modes bmnc nfp filter fst]. rewrite S0, S2. reflexivity.
    + unfold scale_of, q, norm. destruct nrm; [reflexivity|reflexivity|congruence].
Qed.

(** [helicity_m], apart from 0 and 1, is refused; (0, 0) means quasi-axisymmetry *)
Theorem C101_helicity_m : forall q sp u, (hm q <> 0 -> hm q <> 1 -> surface_error q sp u = None)%Z /\
  surface_error (mkQ 0 0 (norm q) (wt q)) sp u = surface_error (mkQ 1 0 (norm q) (wt q)) sp u.
Proof.
  intros q sp u. split; [|reflexivity]. intros A B. unfold surface_error. replace (negb _) with true; [reflexivity|].
  symmetry. apply negb_true_iff, orb_false_iff. split; now apply Z.eqb_neq.
Qed.

(** Equilibria without stellarator symmetry: the sine amplitudes are not looked at *)
Theorem C101_asymmetric_part_ignored : forall q sp u s', surface_error q (mkSp (nfp sp) (modes sp) (bmnc sp) s') u = surface_error q sp u.
Proof. reflexivity. Qed.
(** so J can vanish although the field is not symmetric at all *)
Theorem C101_asymmetric_counterexample : forall nf b0 b1, (0 < nf)%Z -> b0 <> 0 -> b1 <> 0 ->
  let sp := mkSp nf [(0, 0); (1, nf)]%Z [b0; 0] [0; b1] in let q := mkQ 1 0 B00 Even in
  (exists l, surface_error q sp 1 = Some l /\ forall x, In x l -> x = 0) /\ ~ depends_only_on 1 0 (field sp).
Proof.
  intros nf b0 b1 Pn N0 N1 sp q. split.
  - eexists. split.
    + rewrite (surface_error_eq q sp 1 b0).
      * cbn [wt q]. reflexivity.
      * split; [auto|]. split; [reflexivity|]. split; [repeat constructor; cbn; intuition discriminate|]. intros p [<-|[<-|[]]]; cbn; lia.
      * split; [now right|intros [=]].
      * reflexivity.
    + intros x I. apply in_map_iff in I as (y & <- & I). unfold breaking, sp in I. cbn [combine modes bmnc nfp filter fst] in I.
      replace (sym q nf (0, 0)%Z) with true in I by (unfold sym; cbn [hm hn q fst snd]; symmetry; apply Z.eqb_eq; lia). cbn [negb] in I.
      destruct (sym q nf (1, nf)%Z); cbn in I; [destruct I|]. destruct I as [<-|[]]. unfold Rdiv. ring.
  - intros H. assert (P : 0 < IZR nf) by now apply IZR_lt.
    specialize (H 0 0 0 (PI / 2 / IZR nf) ltac:(ring)). unfold field, sp, angle in H. cbn [combine modes bmnc bmns map rsuml fst snd] in H.
    replace (1 * 0 - IZR nf * (PI / 2 / IZR nf)) with (- (PI / 2)) in H by (field; lra).
    replace (1 * 0 - IZR nf * 0) with 0 in H by ring. rewrite !Rmult_0_l, !Rminus_0_r in H. rewrite sin_neg, sin_PI2, sin_0, cos_0 in H. lra.
Qed.

(** several surfaces: one block after the other; all zero exactly if every surface is symmetric *)
Theorem C101_blocks : forall q surfs l, J q surfs = Some l ->
  exists ls, Forall2 (fun su li => surface_error q (fst su) (snd su) = Some li) surfs ls /\ l = concat ls.
Proof.
  intros q. unfold J. induction surfs as [|su r IH]; intros l H; cbn in H; [injection H as <-; exists []; split; [constructor|auto]|].
  destruct (surface_error q (fst su) (snd su)) as [a|] eqn:Ea; [|discriminate].
  destruct (blocks (map (fun su => surface_error q (fst su) (snd su)) r)) as [t|]; [|discriminate]. cbn in H. injection H as <-.
  destruct (IH t eq_refl) as (ls & F & ->). exists (a :: ls). split; [constructor; auto|reflexivity].
Qed.

(** * A concrete case: nfp = 2, modes (0,0), (0,2), (1,-2), (1,0); quasi-axisymmetry breaks at (0,2) and (1,-2) *)
Definition ex_sp : spectrum := mkSp 2 [(0, 0); (0, 2); (1, -2); (1, 0)]%Z [5; 1/10; 1/5; 1] [].
Example ex_canonical : canonical ex_sp /\ stellarator_symmetric ex_sp.
Proof.
  split; [|intros b []]. split; [reflexivity|]. split; [reflexivity|]. split; [repeat constructor; cbn; intuition discriminate|].
  intros p [<-|[<-|[<-|[<-|[]]]]]; cbn; lia.
Qed.
Example ex_J : surface_error (mkQ 1 0 B00 Even) ex_sp 1 = Some [1/10/5; 1/5/5].
Proof. rewrite (surface_error_eq _ _ _ 5); [reflexivity|apply ex_canonical|split; [now right|intros [=]]|reflexivity]. Qed.

