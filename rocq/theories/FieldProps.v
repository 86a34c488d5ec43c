(** C41, C42: evaluations of a BiotSavart field along arbitrary histories. *)
From Verif Require Import Vec3 BSModel BSDeriv PointsModel FieldModel.
Open Scope R_scope.

(** ** Specification: what the user expects, from the history alone *)
Inductive psrc := PCart (p : list vec3) | PCyl (p : list vec3).
Definition cart_of (s : psrc) : list vec3 := match s with PCart p => p | PCyl p => map to_cart (map wrap_cyl p) end.
Definition cyl_of (s : psrc) : list vec3 := match s with PCart p => map to_cyl p | PCyl p => map wrap_cyl p end.
(** the points set last, and the coils as of the last change *)
Fixpoint last_pts (h : list op) (d : psrc) : psrc :=
  match h with [] => d | SetCart p :: r => last_pts r (PCart p) | SetCyl p :: r => last_pts r (PCyl p) | _ :: r => last_pts r d end.
Fixpoint last_cfg (h : list op) (d : list (R * list qpt)) : list (R * list qpt) :=
  match h with [] => d | Dofs c _ :: r => last_cfg r c | _ :: r => last_cfg r d end.
(** every change of a dof happened while the field had some free dof *)
Definition all_rung (h : list op) : Prop := forall c, ~ In (Dofs c false) h.
(** the value at one point (x cartesian, y cylindrical) of each quantity, for given coils *)
Definition fresh (q : quant) (cs : list (R * list qpt)) (x y : vec3) : row :=
  let B := coils_field kB cs x in
  let G := [dot3 B (coils_field (kdB 0) cs x) / sqrt (normsq B); dot3 B (coils_field (kdB 1) cs x) / sqrt (normsq B);
            dot3 B (coils_field (kdB 2) cs x) / sqrt (normsq B)] in
  let cyl (v : vec3) := [V3 (cos (vy y) * vx v + sin (vy y) * vy v) (cos (vy y) * vy v - sin (vy y) * vx v) (vz v)] in
  match q with
  | Q FB O0 => [B]
  | Q FB O1 => [coils_field (kdB 0) cs x; coils_field (kdB 1) cs x; coils_field (kdB 2) cs x]
  | Q FB O2 => map (fun kl => coils_field (kddB (fst kl) (snd kl)) cs x) idx2
  | Q FA O0 => [coils_field kA cs x]
  | Q FA O1 => [coils_field (kdA 0) cs x; coils_field (kdA 1) cs x; coils_field (kdA 2) cs x]
  | Q FA O2 => map (fun kl => coils_field (kddA (fst kl) (snd kl)) cs x) idx2
  | QAbs => [V3 (sqrt (normsq B)) 0 0]
  | QGrad => [V3 (nth 0 G 0) (nth 1 G 0) (nth 2 G 0)]
  | QBcyl => cyl B
  | QAcyl => cyl (coils_field kA cs x)
  | QGradcyl => cyl (V3 (nth 0 G 0) (nth 1 G 0) (nth 2 G 0))
  end.
Definition fresh_arr (q : quant) (cs : list (R * list qpt)) (ps : psrc) : list row :=
  map (fun xy => fresh q cs (fst xy) (snd xy)) (combine (cart_of ps) (cyl_of ps)).
(** the field of each coil for unit current *)
Definition fresh_coils (f : fam) (o : ord) (cs : list (R * list qpt)) (ps : psrc) : list (list row) :=
  map (fun c => map (krow f o (snd c)) (cart_of ps)) cs.

(** ** Lemmas *)
Local Arguments fam_eqb : simpl never.
Local Arguments ole : simpl never.
Local Arguments eval_base : simpl never.
Local Arguments get_cyl : simpl never.
Local Arguments get_cart : simpl never.
Local Arguments compute : simpl never.
Local Arguments zip2 : simpl never.
Local Arguments Nat.eqb : simpl never.
Local Arguments Nat.ltb : simpl never.
Lemma map_nth_seq {A B} (f : A -> B) l d : map (fun i => f (nth i l d)) (seq 0 (length l)) = map f l.
Proof.
  induction l as [|a l IH]; cbn; auto. f_equal. rewrite <- seq_shift, map_map. cbn. exact IH.
Qed.
Lemma map_nth_seq2 {A B} (f : A -> B) (g : nat -> B) l d :
  (forall i, (i < length l)%nat -> g i = f (nth i l d)) -> map g (seq 0 (length l)) = map f l.
Proof. intros H. rewrite <- (map_nth_seq f l d). apply map_ext_in. intros i Hi. apply in_seq in Hi. apply H. lia. Qed.
Lemma combine_map_l {A B C} (f : A -> B) (g : A -> C) l : combine (map f l) (map g l) = map (fun a => (f a, g a)) l.
Proof. induction l; cbn; congruence. Qed.
Lemma repeat_map {A B} (z : B) (l : list A) : repeat z (length l) = map (fun _ => z) l.
Proof. induction l; cbn; congruence. Qed.
Definition kidx (o : ord) : list (nat * nat) :=
  match o with O0 => [(0, 0)]%nat | O1 => [(0,0);(1,0);(2,0)]%nat | O2 => idx2 end.
Definition kker (f : fam) (o : ord) (j : nat * nat) : vec3 -> qpt -> vec3 :=
  match f, o with
  | FB, O0 => kB | FB, O1 => kdB (fst j) | FB, O2 => kddB (fst j) (snd j)
  | FA, O0 => kA | FA, O1 => kdA (fst j) | FA, O2 => kddA (fst j) (snd j) end.
Lemma krow_gen f o c x : krow f o c x = map (fun j => coil_field (kker f o j) c x) (kidx o).
Proof. destruct f, o; reflexivity. Qed.
Lemma zrow_gen o : zrow o = map (fun _ => v0) (kidx o).
Proof. destruct o; reflexivity. Qed.
Lemma fresh_gen f o cs x y : fresh (Q f o) cs x y = map (fun j => coils_field (kker f o j) cs x) (kidx o).
Proof. destruct f, o; reflexivity. Qed.
Lemma acc_rows (pts : list vec3) (l : list (R * list qpt)) (f : fam) (o : ord) (g : vec3 -> row) :
  fold_left (fun acc ci => aadd acc (ascal (fst ci) (snd ci))) (map (fun c => (fst c, map (krow f o (snd c)) pts)) l) (map g pts) =
  map (fun x => fold_left (fun r c => radd r (rscal (fst c) (krow f o (snd c) x))) l (g x)) pts.
Proof.
  revert g. induction l as [|c l IH]; intros g; cbn [fold_left map fst snd]; auto.
  replace (aadd (map g pts) (ascal (fst c) (map (krow f o (snd c)) pts))) with (map (fun x => radd (g x) (rscal (fst c) (krow f o (snd c) x))) pts).
  - apply (IH (fun x => radd (g x) (rscal (fst c) (krow f o (snd c) x)))).
  - unfold aadd, ascal. rewrite map_map, combine_map_l, map_map. reflexivity.
Qed.
Lemma acc_comps f o l x (a : nat * nat -> vec3) :
  fold_left (fun r c => radd r (rscal (fst c) (krow f o (snd c) x))) l (map a (kidx o)) =
  map (fun j => add3 (a j) (coils_field (kker f o j) l x)) (kidx o).
Proof.
  revert a. induction l as [|c l IH]; intros a; cbn [fold_left].
  - apply map_ext. intros j. unfold coils_field. cbn. now rewrite add3_0_r.
  - replace (radd (map a (kidx o)) (rscal (fst c) (krow f o (snd c) x)))
      with (map (fun j => add3 (a j) (scal3 (fst c) (coil_field (kker f o j) (snd c) x))) (kidx o)).
    + rewrite IH. apply map_ext. intros j. unfold coils_field. cbn. now rewrite add3_assoc.
    + unfold radd, rscal. rewrite krow_gen, map_map, combine_map_l, map_map. reflexivity.
Qed.
Lemma accumulate_fresh f o cs pts :
  accumulate o (length pts) (map (fun c => (fst c, map (krow f o (snd c)) pts)) cs) =
  map (fun x => map (fun j => coils_field (kker f o j) cs x) (kidx o)) pts.
Proof.
  unfold accumulate. rewrite repeat_map, acc_rows. apply map_ext. intros x. rewrite zrow_gen, acc_comps.
  apply map_ext. intros j. apply add3_0_l.
Qed.
Lemma fresh_arr_base f o cs ps : fresh_arr (Q f o) cs ps = map (fun x => map (fun j => coils_field (kker f o j) cs x) (kidx o)) (cart_of ps).
Proof.
  unfold fresh_arr. destruct ps as [p|p]; cbn [cart_of cyl_of].
  - rewrite <- (map_id p) at 1. rewrite combine_map_l, map_map. apply map_ext. intros x. apply fresh_gen.
  - rewrite <- (map_id (map wrap_cyl p)) at 2. rewrite combine_map_l, !map_map. apply map_ext. intros x. apply fresh_gen.
Qed.

(** ** The invariant *)
Record coh (s : bs) (ps : psrc) (cs : list (R * list qpt)) : Prop := {
  k_cart : c_ok (pcart s) = true -> c_dat (pcart s) = cart_of ps;
  k_cyl : c_ok (pcyl s) = true -> c_dat (pcyl s) = cyl_of ps;
  k_src : match ps with PCart _ => c_ok (pcart s) = true | PCyl _ => c_ok (pcyl s) = true end;
  k_np : np s = length (cart_of ps);
  k_cs : coils s = cs;
  k_dat : forall q, c_ok (dat s q) = true -> c_dat (dat s q) = fresh_arr q cs ps;
  k_fc : forall o i c, fc s (FB, o, i) = Some c -> c_ok c = true -> (i < length cs)%nat ->
         c_dat c = map (krow FB o (snd (nth i cs (0, [])))) (cart_of ps) }.

Lemma get_cart_coh s ps cs : coh s ps cs -> coh (fst (get_cart s)) ps cs /\ snd (get_cart s) = cart_of ps /\ c_ok (pcart (fst (get_cart s))) = true /\
  dat (fst (get_cart s)) = dat s /\ fc (fst (get_cart s)) = fc s.
Proof.
  intros [A B C D E F G]. unfold get_cart. destruct (c_ok (pcart s)) eqn:K.
  - cbn. split; [|split; [|split; [|split]]]; auto. split; auto. now rewrite K.
  - destruct ps as [p|p]; [congruence|]. assert (H : map to_cart (c_dat (pcyl s)) = cart_of (PCyl p)) by (rewrite B; auto).
    cbn. split; [|split; [|split; [|split]]]; auto. split; cbn; auto.
Qed.
Lemma get_cyl_coh s ps cs : coh s ps cs -> coh (fst (get_cyl s)) ps cs /\ snd (get_cyl s) = cyl_of ps /\
  dat (fst (get_cyl s)) = dat s /\ fc (fst (get_cyl s)) = fc s.
Proof.
  intros [A B C D E F G]. unfold get_cyl. destruct (c_ok (pcyl s)) eqn:K.
  - cbn. split; [|split; [|split]]; auto. split; auto. now rewrite K.
  - destruct ps as [p|p]; [|congruence]. assert (H : map to_cyl (c_dat (pcart s)) = cyl_of (PCart p)) by (rewrite A; auto).
    cbn. split; [|split; [|split]]; auto. split; cbn; auto.
Qed.
Lemma compute_coh f d s ps cs : coh s ps cs -> coh (compute f d s) ps cs /\
  (forall o, ole o d = true -> c_ok (dat (compute f d s) (Q f o)) = true) /\
  (forall o i, ole o d = true -> (i < length cs)%nat ->
     fc (compute f d s) (f, o, i) = Some (Cell true (map (krow f o (snd (nth i cs (0, [])))) (cart_of ps)))) /\
  (forall g o i, fam_eqb g f && ole o d = false -> fc (compute f d s) (g, o, i) = fc s (g, o, i)).
Proof.
  intros H. pose proof (get_cart_coh s ps cs H) as (H1 & H2 & H3 & H4 & H5). unfold compute.
  destruct (get_cart s) as [s1 pts]. cbn [fst snd] in *. subst pts. destruct H1 as [A B C D E F G].
  assert (FF : forall b, fam_eqb b b = true) by now intros [].
  split; [split; cbn; auto|cbn].
  - intros [g o| | | | |]; auto. destruct (fam_eqb g f && ole o d) eqn:K; auto. intros _. cbn.
    apply andb_true_iff in K as [K _]. assert (g = f) by (destruct g, f; auto; discriminate). subst g.
    rewrite D, E, fresh_arr_base. rewrite <- accumulate_fresh. f_equal.
    apply map_nth_seq2 with (d := (0, [])). reflexivity.
  - intros o i c. destruct (fam_eqb FB f && ole o d && (i <? length (coils s1))%nat) eqn:K; [|apply G].
    intros [= <-] _ _. cbn. apply andb_true_iff in K as [K _]. apply andb_true_iff in K as [K _].
    destruct f; [|discriminate]. now rewrite E.
  - split; [|split].
    + intros o Ho. now rewrite FF, Ho.
    + intros o i Ho Hi. rewrite FF, Ho, E. apply Nat.ltb_lt in Hi. now rewrite Hi.
    + intros g o i K. rewrite K. cbn. now rewrite H5.
Qed.
Lemma invalidate_coh s ps cs : coh s ps cs -> coh (invalidate s) ps cs.
Proof.
  intros [A B C D E F G]. split; cbn; auto; try discriminate.
  intros o i c. destruct (fc s (FB, o, i)); cbn; [|discriminate]. intros [= <-]. discriminate.
Qed.
Lemma ole_refl o : ole o o = true. Proof. destruct o; reflexivity. Qed.
Lemma quant_eqb_true a b : quant_eqb a b = true -> a = b.
Proof. destruct a as [[] []| | | | |], b as [[] []| | | | |]; try reflexivity; intros H; vm_compute in H; discriminate. Qed.
Lemma quant_eqb_refl a : quant_eqb a a = true.
Proof. destruct a as [[] []| | | | |]; reflexivity. Qed.
Lemma eval_base_coh f o s ps cs : coh s ps cs -> coh (fst (eval_base f o s)) ps cs /\ snd (eval_base f o s) = fresh_arr (Q f o) cs ps /\
  c_ok (dat (fst (eval_base f o s)) (Q f o)) = true.
Proof.
  intros H. unfold eval_base. destruct (c_ok (dat s (Q f o))) eqn:K; cbn.
  - split; auto. split; auto. now apply (k_dat _ _ _ H).
  - pose proof (compute_coh f o s ps cs H) as (H1 & H2 & _). specialize (H2 o (ole_refl o)). split; auto. split; auto. now apply (k_dat _ _ _ H1).
Qed.
Lemma set_dat_coh s q a ps cs : coh s ps cs -> a = fresh_arr q cs ps -> coh (set_dat s q (Cell true a)) ps cs.
Proof.
  intros [A B C D E F G] Ha. split; cbn; auto. intros q'. destruct (quant_eqb q' q) eqn:K; [|auto].
  apply quant_eqb_true in K. subst q'. auto.
Qed.
Definition good (q : quant) (ev : bs -> bs * list row) := forall s ps cs, coh s ps cs ->
  coh (fst (ev s)) ps cs /\ snd (ev s) = fresh_arr q cs ps.
Lemma fill_good q impl : (forall s ps cs, coh s ps cs -> coh (fst (impl s)) ps cs /\ snd (impl s) = fresh_arr q cs ps) -> good q (fill q impl).
Proof.
  intros I s ps cs H. unfold fill. destruct (c_ok (dat s q)) eqn:K; cbn.
  - split; auto. now apply (k_dat _ _ _ H).
  - destruct (I s ps cs H) as [I1 I2]. destruct (impl s) as [s1 a]. cbn in *. split; auto. now apply set_dat_coh.
Qed.
Lemma zip2_map {A B C D} (f : B -> C -> D) (g : A -> B) (h : A -> C) l : zip2 f (map g l) (map h l) = map (fun a => f (g a) (h a)) l.
Proof. unfold zip2. now rewrite combine_map_l, map_map. Qed.
Lemma abs_good : good QAbs eval_abs.
Proof.
  apply fill_good. intros s ps cs H. destruct (eval_base_coh FB O0 s ps cs H) as (H1 & H2 & _).
  destruct (eval_base FB O0 s) as [s1 b]. cbn in *. split; auto. subst b. unfold fresh_arr. rewrite map_map. reflexivity.
Qed.
Lemma grad_good : good QGrad eval_grad.
Proof.
  apply fill_good. intros s ps cs H. destruct (eval_base_coh FB O0 s ps cs H) as (H1 & H2 & _).
  destruct (eval_base FB O0 s) as [s1 b]. cbn in *.
  destruct (eval_base_coh FB O1 s1 ps cs H1) as (H3 & H4 & _). destruct (eval_base FB O1 s1) as [s2 g]. cbn in *.
  split; auto. subst b g. unfold fresh_arr. rewrite zip2_map. reflexivity.
Qed.
Lemma combine_snd_gen {A B} (l1 : list A) (l2 : list B) : length l1 = length l2 -> l2 = map snd (combine l1 l2).
Proof. revert l2. induction l1; intros [|b l2]; cbn; intros; try discriminate; auto. f_equal. apply IHl1. lia. Qed.
Lemma len_pts ps : length (cart_of ps) = length (cyl_of ps).
Proof. destruct ps; cbn; now rewrite !map_length. Qed.
Lemma cyl_good q src q0 : good q0 src ->
  (forall cs x y, fresh q cs x y = cyl_row y (fresh q0 cs x y)) -> good q (eval_cyl q src).
Proof.
  intros G E. apply fill_good. intros s ps cs H. destruct (G s ps cs H) as (H1 & H2).
  destruct (src s) as [s1 b]. cbn in *. destruct (get_cyl_coh s1 ps cs H1) as (H3 & H4 & _).
  destruct (get_cyl s1) as [s2 p]. cbn in *. split; auto. subst b p. unfold fresh_arr.
  pose proof (combine_snd_gen _ _ (len_pts ps)) as L. set (l := combine (cart_of ps) (cyl_of ps)) in *. rewrite L. rewrite zip2_map. apply map_ext. intros [x y]. cbn. now rewrite E.
Qed.
Lemma base_good f o : good (Q f o) (eval_base f o).
Proof. intros s ps cs H. destruct (eval_base_coh f o s ps cs H) as (A & B & _). auto. Qed.
Lemma eval_good q : good q (eval q).
Proof.
  destruct q as [f o| | | | |]; cbn [eval].
  - apply base_good.
  - apply abs_good.
  - apply grad_good.
  - apply (cyl_good _ _ (Q FB O0)); [apply base_good|reflexivity].
  - apply (cyl_good _ _ (Q FA O0)); [apply base_good|reflexivity].
  - apply (cyl_good _ _ QGrad); [apply grad_good|reflexivity].
Qed.
(** DCur for the field *)
Lemma onum_inj a b : onum a = onum b -> a = b. Proof. destruct a, b; cbn; congruence. Qed.
Lemma fam_eqb_true a b : fam_eqb a b = true -> a = b. Proof. destruct a, b; auto; intros H; vm_compute in H; discriminate. Qed.
Lemma dcur_coh f o k s ps cs : coh s ps cs -> coh (fst (dcur f o k s)) ps cs /\
  (f = FB -> ole o k = true -> snd (dcur f o k s) = Some (fresh_coils f o cs ps)) /\
  (f = FB -> forall l, snd (dcur f o k s) = Some l -> l = fresh_coils f o cs ps).
Proof.
  intros H. unfold dcur. pose proof (get_cart_coh s ps cs H) as (H1 & H2 & _). destruct (get_cart s) as [s1 pts]. cbn [fst snd] in *. subst pts.
  assert (E1 := k_cs _ _ _ H1). rewrite E1.
  destruct (forallb (fun i => fc_status s1 (f, o, i)) (seq 0 (length cs)) || ole o k) eqn:C.
  2:{ cbn. apply orb_false_iff in C as [_ C]. split; auto. split; intros; congruence. }
  set (s2 := if forallb (fun i => fc_status s1 (f, o, i)) (seq 0 (length cs)) then s1 else compute FB k s1).
  assert (H2 : coh s2 ps cs). { unfold s2. destruct (forallb _ _); auto. apply compute_coh; auto. }
  assert (V : f = FB -> forall i, (i < length cs)%nat -> exists c, fc s2 (f, o, i) = Some c /\ c_dat c = map (krow FB o (snd (nth i cs (0, [])))) (cart_of ps)).
  { intros -> i Hi. unfold s2. destruct (forallb _ _) eqn:FA.
    - rewrite forallb_forall in FA. specialize (FA i ltac:(apply in_seq; lia)). unfold fc_status in FA.
      destruct (fc s1 (FB, o, i)) as [c|] eqn:Ec; [|discriminate]. exists c. split; auto. apply (k_fc _ _ _ H1 _ _ _ Ec); auto.
    - cbn in C. pose proof (compute_coh FB k s1 ps cs H1) as (_ & _ & K & _). rewrite (K o i C Hi). eexists; split; [reflexivity|]. reflexivity. }
  cbn [fst snd]. split; [|split].
  - destruct H2 as [A B C' D E F G]. split; cbn; auto.
    intros o' i c. destruct (fam_eqb FB f && (onum o' =? onum o)%nat && (i <? length cs)%nat) eqn:K; [|apply G].
    apply andb_true_iff in K as [K K3]. apply andb_true_iff in K as [K K2]. apply Nat.eqb_eq, onum_inj in K2. apply fam_eqb_true in K. subst o' f.
    intros [= <-] _ Hi. destruct (V eq_refl i Hi) as (c & Ec & Dc). rewrite Ec. cbn. rewrite Dc, map_length, Nat.eqb_refl. reflexivity.
  - intros Hf _. f_equal. unfold fresh_coils. apply map_nth_seq2 with (d := (0, [])). intros i Hi. destruct (V Hf i Hi) as (c & Ec & Dc).
    rewrite Ec. cbn. now rewrite Dc, map_length, Nat.eqb_refl, Hf.
  - intros Hf l [= <-]. unfold fresh_coils. apply map_nth_seq2 with (d := (0, [])). intros i Hi. destruct (V Hf i Hi) as (c & Ec & Dc).
    rewrite Ec. cbn. now rewrite Dc, map_length, Nat.eqb_refl, Hf.
Qed.
Lemma set_cart_coh p s ps cs : coh s ps cs -> coh (set_points_cart p s) (PCart p) cs.
Proof.
  intros H. apply invalidate_coh in H. destruct H as [A B C D E F G]. split; cbn in *; auto; try discriminate.
  intros o i c. destruct (fc s (FB, o, i)); cbn; [|discriminate]. intros [= <-]. discriminate.
Qed.
Lemma set_cyl_coh p s ps cs : coh s ps cs -> coh (set_points_cyl p s) (PCyl p) cs.
Proof.
  intros H. apply invalidate_coh in H. destruct H as [A B C D E F G]. split; cbn in *; auto; try discriminate.
  - now rewrite !map_length.
  - intros o i c. destruct (fc s (FB, o, i)); cbn; [|discriminate]. intros [= <-]. discriminate.
Qed.
Lemma new_coh cs : coh (new_bs cs) (PCart [v0]) cs.
Proof. split; cbn; auto; discriminate. Qed.
Lemma step_coh o s ps cs : coh s ps cs -> (forall c, o <> Dofs c false) -> coh (fst (step o s)) (last_pts [o] ps) (last_cfg [o] cs).
Proof.
  intros H Ho. destruct o as [p|p|c b| |q| | |f o k]; cbn.
  - now apply set_cart_coh with (ps := ps).
  - now apply set_cyl_coh with (ps := ps).
  - destruct b; [|exfalso; eapply Ho; eauto]. destruct H as [A B C D E F G]. split; cbn; auto; try discriminate.
    intros o i c'. destruct (fc s (FB, o, i)); cbn; [|discriminate]. intros [= <-]. discriminate.
  - now apply invalidate_coh.
  - destruct (eval_good q s ps cs H) as [K _]. destruct (eval q s). exact K.
  - destruct (get_cart_coh s ps cs H) as [K _]. destruct (get_cart s). exact K.
  - destruct (get_cyl_coh s ps cs H) as [K _]. destruct (get_cyl s). exact K.
  - destruct (dcur_coh f o k s ps cs H) as [K _]. destruct (dcur f o k s). exact K.
Qed.
Lemma run_coh h : forall s ps cs, coh s ps cs -> all_rung h -> coh (run h s) (last_pts h ps) (last_cfg h cs).
Proof.
  induction h as [|o h IH]; intros s ps cs H A; cbn [run last_pts last_cfg]; auto.
  assert (K : coh (fst (step o s)) (last_pts [o] ps) (last_cfg [o] cs)).
  { apply step_coh; auto. intros c ->. apply (A c). now left. }
  specialize (IH _ _ _ K ltac:(intros c Hc; apply (A c); now right)).
  destruct o; exact IH.
Qed.

(** ** C41 *)
Section C41.
  Variables (cs : list (R * list qpt)) (h : list op).
  Hypothesis H : all_rung h.
  Let ps := last_pts h (PCart [v0]).
  Let cfg := last_cfg h cs.
  (** every evaluation, after any history of point changes, dof changes, evaluations and cache clearings,
      returns the value for the current points and the current coils *)
Theorem C41_evaluation_never_stale q : snd (step (Eval q) (run h (new_bs cs))) = OArr (fresh_arr q cfg ps).
  Proof.
    pose proof (run_coh h _ _ _ (new_coh cs) H) as K. cbn. destruct (eval_good q _ _ _ K) as [_ E].
    destruct (eval q (run h (new_bs cs))). cbn in *. now subst.
  Qed.
Theorem C41_points : snd (step GetCart (run h (new_bs cs))) = OPts (cart_of ps) /\ snd (step GetCyl (run h (new_bs cs))) = OPts (cyl_of ps).
  Proof.
    pose proof (run_coh h _ _ _ (new_coh cs) H) as K. cbn. destruct (get_cart_coh _ _ _ K) as (_ & E & _). destruct (get_cyl_coh _ _ _ K) as (_ & E' & _).
    destruct (get_cart _), (get_cyl _). cbn in *. now subst.
  Qed.
  (** C42 for the field: the per-coil fields are right after every history; a compute_derivatives argument that
      is too small gives an AssertionError or the right answer *)
Theorem C42_field_per_coil_never_stale o k : ole o k = true ->
    snd (step (DCur FB o k) (run h (new_bs cs))) = OArrs (fresh_coils FB o cfg ps).
  Proof.
    intros Hk. pose proof (run_coh h _ _ _ (new_coh cs) H) as K. cbn. destruct (dcur_coh FB o k _ _ _ K) as (_ & E & _).
    destruct (dcur FB o k (run h (new_bs cs))) as [s r]. cbn in *. now rewrite E.
  Qed.
Theorem C42_field_per_coil_small_argument o k :
    snd (step (DCur FB o k) (run h (new_bs cs))) = OArrs (fresh_coils FB o cfg ps) \/ snd (step (DCur FB o k) (run h (new_bs cs))) = OAssert.
  Proof.
    pose proof (run_coh h _ _ _ (new_coh cs) H) as K. cbn. destruct (dcur_coh FB o k _ _ _ K) as (_ & _ & E).
    destruct (dcur FB o k (run h (new_bs cs))) as [s [l|]]; cbn in *; auto. left. now rewrite (E eq_refl l eq_refl).
  Qed.
End C41.

(** when a dof changes while all dofs of the field and its ancestors are fixed the cache is kept: the next
    evaluation of the same quantity returns the value for the old coils, whatever the new ones are *)
Theorem C41_stale_when_everything_is_fixed cs h q c' : all_rung h ->
  snd (step (Eval q) (run (h ++ [Eval q; Dofs c' false]) (new_bs cs))) = OArr (fresh_arr q (last_cfg h cs) (last_pts h (PCart [v0]))).
Proof.
  intros H. assert (RA : forall a b s, run (a ++ b) s = run b (run a s)) by (induction a; intros; cbn; auto).
  rewrite RA. pose proof (run_coh h _ _ _ (new_coh cs) H) as K. set (s := run h (new_bs cs)) in *.
  set (ps := last_pts h (PCart [v0])) in *. set (cfg := last_cfg h cs) in *.
  assert (W : forall s1 a, eval q s = (s1, a) -> c_ok (dat s1 q) = true).
  { intros s1 a E. assert (Fl : forall impl, fill q impl s = (s1, a) -> c_ok (dat s1 q) = true).
    { intros impl. unfold fill. destruct (c_ok (dat s q)) eqn:Q; [intros [= <- _]; auto|]. destruct (impl s). intros [= <- _]. cbn. now rewrite quant_eqb_refl. }
    destruct q as [f o| | | | |]; cbn [eval] in E; unfold eval_abs, eval_grad, eval_cyl in E; try (eapply Fl; exact E).
    destruct (eval_base_coh f o s ps cfg K) as (_ & _ & Ok). rewrite E in Ok. exact Ok. }
  destruct (eval_good q s ps cfg K) as [K1 E1]. destruct (eval q s) as [s1 a] eqn:Es. specialize (W _ _ eq_refl).
  cbn [run step]. rewrite Es. cbn [fst snd] in *.
  assert (X : forall d, dat d q = dat s1 q -> snd (eval q d) = c_dat (dat s1 q)).
  { intros d Hd. assert (Fl : forall impl, snd (fill q impl d) = c_dat (dat s1 q)) by (intros impl; unfold fill; rewrite Hd, W; reflexivity).
    destruct q as [f o| | | | |]; cbn [eval]; unfold eval_abs, eval_grad, eval_cyl; auto. unfold eval_base. rewrite Hd, W. cbn. now rewrite Hd. }
  specialize (X (dofs_changed c' false s1) eq_refl).
  destruct (eval q (dofs_changed c' false s1)) as [s3 b]. cbn [snd] in *. rewrite X. f_equal. now apply (k_dat _ _ _ K1).
Qed.

(** ** C42: the vector potential *)
Definition touches_A (o : op) : bool := match o with Eval (Q FA _) | Eval QAcyl => true | _ => false end.
Definition keeps (o : op) : bool := match o with SetCart _ | SetCyl _ | Dofs _ _ | Clear => false | _ => true end.
(** evaluated since the last invalidation: the per-coil potentials are right *)
Definition goodA (s : bs) (ps : psrc) (cs : list (R * list qpt)) : Prop :=
  forall o, c_ok (dat s (Q FA o)) = true -> forall i, (i < length cs)%nat ->
    fc s (FA, o, i) = Some (Cell true (map (krow FA o (snd (nth i cs (0, [])))) (cart_of ps))).
Lemma goodA_ext s s' ps cs : goodA s ps cs -> dat s' = dat s -> fc s' = fc s -> goodA s' ps cs.
Proof. unfold goodA. intros G -> ->. auto. Qed.
Lemma goodA_compute f d s ps cs : coh s ps cs -> goodA s ps cs -> goodA (compute f d s) ps cs.
Proof.
  intros H G o Ho i Hi. pose proof (compute_coh f d s ps cs H) as (_ & _ & C1 & C2).
  destruct (fam_eqb FA f && ole o d) eqn:K.
  - apply andb_true_iff in K as [K Kd]. apply fam_eqb_true in K. subst f. auto.
  - rewrite C2 by auto. apply G; auto. revert Ho. unfold compute.
    pose proof (get_cart_coh s ps cs H) as (_ & _ & _ & D & _). destruct (get_cart s) as [s1 p]. cbn in *. rewrite K. now rewrite D.
Qed.
Lemma goodA_base f o s ps cs : coh s ps cs -> goodA s ps cs -> goodA (fst (eval_base f o s)) ps cs.
Proof. intros H G. unfold eval_base. destruct (c_ok _); cbn; auto. now apply goodA_compute. Qed.
Lemma goodA_fill q impl s ps cs : (forall f o, q <> Q f o) -> (coh s ps cs -> goodA s ps cs -> goodA (fst (impl s)) ps cs) ->
  coh s ps cs -> goodA s ps cs -> goodA (fst (fill q impl s)) ps cs.
Proof.
  intros N I H G. unfold fill. destruct (c_ok (dat s q)); cbn; auto. specialize (I H G). destruct (impl s) as [s1 a]. cbn in *.
  intros o Ho i Hi. cbn in *. apply I; auto. destruct q as [g p| | | | |]; auto. exfalso. eapply (N g p). reflexivity.
Qed.
Lemma goodA_cyl s ps cs : coh s ps cs -> goodA s ps cs -> goodA (fst (get_cyl s)) ps cs.
Proof. intros H G. pose proof (get_cyl_coh s ps cs H) as (_ & _ & A & B). eapply goodA_ext; eauto. Qed.
Lemma goodA_cart s ps cs : coh s ps cs -> goodA s ps cs -> goodA (fst (get_cart s)) ps cs.
Proof. intros H G. pose proof (get_cart_coh s ps cs H) as (_ & _ & _ & A & B). eapply goodA_ext; eauto. Qed.
Lemma goodA_grad s ps cs : coh s ps cs -> goodA s ps cs -> goodA (fst (eval_grad s)) ps cs.
Proof.
  intros H G. apply goodA_fill; auto; [congruence|]. intros _ _. pose proof (goodA_base FB O0 s ps cs H G) as A.
  pose proof (eval_base_coh FB O0 s ps cs H) as (B & _). destruct (eval_base FB O0 s) as [s1 b]. cbn in *.
  pose proof (goodA_base FB O1 s1 ps cs B A) as C. destruct (eval_base FB O1 s1) as [s2 g]. exact C.
Qed.
Lemma goodA_eval_cyl q src q0 s ps cs : (forall f o, q <> Q f o) -> good q0 src ->
  (coh s ps cs -> goodA s ps cs -> goodA (fst (src s)) ps cs) -> coh s ps cs -> goodA s ps cs -> goodA (fst (eval_cyl q src s)) ps cs.
Proof.
  intros N Gd I H G. apply goodA_fill; auto. intros _ _. specialize (I H G). destruct (Gd s ps cs H) as [K _].
  destruct (src s) as [s1 b]. cbn in *. pose proof (goodA_cyl s1 ps cs K I) as X. destruct (get_cyl s1). exact X.
Qed.
Lemma goodA_eval q s ps cs : coh s ps cs -> goodA s ps cs -> goodA (fst (eval q s)) ps cs.
Proof.
  intros H G. destruct q as [f o| | | | |]; cbn [eval].
  - now apply goodA_base.
  - apply goodA_fill; auto; [congruence|]. intros _ _. pose proof (goodA_base FB O0 s ps cs H G) as A. destruct (eval_base FB O0 s). exact A.
  - now apply goodA_grad.
  - eapply goodA_eval_cyl; eauto using base_good; [congruence|]. apply goodA_base.
  - eapply goodA_eval_cyl; eauto using base_good; [congruence|]. apply goodA_base.
  - eapply goodA_eval_cyl; eauto using grad_good; [congruence|]. apply goodA_grad.
Qed.
Lemma goodA_dcur f o k s ps cs : coh s ps cs -> goodA s ps cs -> goodA (fst (dcur f o k s)) ps cs.
Proof.
  intros H G. unfold dcur. pose proof (get_cart_coh s ps cs H) as (H1 & H2 & _). pose proof (goodA_cart s ps cs H G) as G1.
  destruct (get_cart s) as [s1 pts]. cbn [fst snd] in *. subst pts. pose proof (k_cs _ _ _ H1) as E1. rewrite E1.
  destruct (forallb _ _ || ole o k); [|exact G1].
  set (s2 := if forallb _ _ then s1 else compute FB k s1).
  assert (G2 : goodA s2 ps cs). { unfold s2. destruct (forallb _ _); auto. now apply goodA_compute. }
  intros o' Ho i Hi. cbn in *. destruct (fam_eqb FA f && (onum o' =? onum o)%nat && (i <? length cs)%nat) eqn:K.
  - apply andb_true_iff in K as [K K3]. apply andb_true_iff in K as [K K2]. apply Nat.eqb_eq, onum_inj in K2. apply fam_eqb_true in K. subst o' f.
    f_equal. rewrite (G2 o Ho i Hi). cbn. now rewrite map_length, Nat.eqb_refl.
  - apply G2; auto.
Qed.
Lemma goodA_inv s ps cs ps' cs' s' : (forall q, c_ok (dat s' q) = false) -> goodA s ps cs -> goodA s' ps' cs'.
Proof. intros E _ o Ho. now rewrite E in Ho. Qed.
Lemma step_goodA o s ps cs : coh s ps cs -> goodA s ps cs -> (forall c, o <> Dofs c false) -> goodA (fst (step o s)) (last_pts [o] ps) (last_cfg [o] cs).
Proof.
  intros H G Ho. destruct o as [p|p|c b| |q| | |f o k]; cbn.
  - eapply goodA_inv; eauto.
  - eapply goodA_inv; eauto.
  - destruct b; [|exfalso; eapply Ho; eauto]. eapply goodA_inv; eauto.
  - eapply goodA_inv; eauto.
  - pose proof (goodA_eval q s ps cs H G) as X. destruct (eval q s). exact X.
  - pose proof (goodA_cart s ps cs H G) as X. destruct (get_cart s). exact X.
  - pose proof (goodA_cyl s ps cs H G) as X. destruct (get_cyl s). exact X.
  - pose proof (goodA_dcur f o k s ps cs H G) as X. destruct (dcur f o k s). exact X.
Qed.
Lemma run_goodA h : forall s ps cs, coh s ps cs -> goodA s ps cs -> all_rung h -> goodA (run h s) (last_pts h ps) (last_cfg h cs).
Proof.
  induction h as [|o h IH]; intros s ps cs H G A; cbn [run last_pts last_cfg]; auto.
  assert (Ho : forall c, o <> Dofs c false) by (intros c ->; apply (A c); now left).
  pose proof (step_coh o s ps cs H Ho) as K1. pose proof (step_goodA o s ps cs H G Ho) as K2.
  specialize (IH _ _ _ K1 K2 ltac:(intros c Hc; apply (A c); now right)).
  destruct o; exact IH.
Qed.
(** a cell once valid stays valid until an invalidation *)
Lemma keeps_ok q o s ps cs : coh s ps cs -> keeps o = true -> c_ok (dat s q) = true -> c_ok (dat (fst (step o s)) q) = true.
Proof.
  intros H Hk Hq.
  assert (CP : forall f d s, coh s ps cs -> c_ok (dat s q) = true -> c_ok (dat (compute f d s) q) = true).
  { clear. intros f d s H Hq. unfold compute. pose proof (get_cart_coh s ps cs H) as (_ & _ & _ & D & _). destruct (get_cart s) as [s1 p]. cbn in *.
    rewrite D. destruct q as [g o| | | | |]; auto. destruct (_ && _); auto. }
  assert (EB : forall f o s, coh s ps cs -> c_ok (dat s q) = true -> c_ok (dat (fst (eval_base f o s)) q) = true).
  { intros f o' s0 H0 Hq0. unfold eval_base. destruct (c_ok (dat s0 (Q f o'))); cbn; auto. }
  assert (FL : forall q' impl s, coh s ps cs -> c_ok (dat s q) = true -> (coh s ps cs -> c_ok (dat s q) = true -> c_ok (dat (fst (impl s)) q) = true) -> c_ok (dat (fst (fill q' impl s)) q) = true).
  { intros q' impl s0 H0 Hq0 I. unfold fill. destruct (c_ok (dat s0 q')); cbn; auto. specialize (I H0 Hq0). destruct (impl s0); cbn in *. destruct (quant_eqb q q'); auto. }
  assert (GC : forall s, coh s ps cs -> c_ok (dat s q) = true -> c_ok (dat (fst (get_cyl s)) q) = true).
  { intros s0 H0 Hq0. pose proof (get_cyl_coh s0 ps cs H0) as (_ & _ & -> & _). auto. }
  assert (EG : forall s, coh s ps cs -> c_ok (dat s q) = true -> c_ok (dat (fst (eval_grad s)) q) = true).
  { intros s0 H0 Hq0. apply FL; auto. intros _ _. pose proof (EB FB O0 s0 H0 Hq0) as A. pose proof (eval_base_coh FB O0 s0 ps cs H0) as (B & _).
    destruct (eval_base FB O0 s0) as [s1 b]. cbn in *. pose proof (EB FB O1 s1 B A) as A2. destruct (eval_base FB O1 s1). exact A2. }
  assert (EC : forall q' q0 src s, good q0 src -> coh s ps cs -> c_ok (dat s q) = true -> c_ok (dat (fst (src s)) q) = true -> c_ok (dat (fst (eval_cyl q' src s)) q) = true).
  { intros q' q0 src s0 Gd H0 Hq0 I. apply FL; auto. intros _ _. destruct (Gd s0 ps cs H0) as [K _]. destruct (src s0) as [s1 b]. cbn in *.
    specialize (GC s1 K I). destruct (get_cyl s1). exact GC. }
  destruct o as [p|p|c b| |q0| | |f o k]; try discriminate; cbn.
  - enough (c_ok (dat (fst (eval q0 s)) q) = true) by (destruct (eval q0 s); auto).
    destruct q0 as [f o| | | | |]; cbn [eval]; auto.
    + apply FL; auto. intros _ _. specialize (EB FB O0 s H Hq). destruct (eval_base FB O0 s). exact EB.
    + eapply EC; eauto using base_good.
    + eapply EC; eauto using base_good.
    + eapply EC; eauto using grad_good.
  - pose proof (get_cart_coh s ps cs H) as (_ & _ & _ & D & _). destruct (get_cart s). cbn in *. now rewrite D.
  - specialize (GC s H Hq). destruct (get_cyl s). exact GC.
  - unfold dcur. pose proof (get_cart_coh s ps cs H) as (H1 & _ & _ & D & _). destruct (get_cart s) as [s1 pts]. cbn [fst snd] in *.
    rewrite <- D in Hq. destruct (_ || _); [|exact Hq]. cbn. destruct (forallb _ _); auto.
Qed.
Lemma keeps_run q h : forall s ps cs, coh s ps cs -> forallb keeps h = true -> c_ok (dat s q) = true -> c_ok (dat (run h s) q) = true.
Proof.
  induction h as [|o h IH]; intros s ps cs H Hk Hq; cbn in *; auto. apply andb_true_iff in Hk as [K1 K2].
  assert (Ho : forall c, o <> Dofs c false) by (intros c ->; discriminate).
  eapply IH; [apply step_coh; eauto|auto|]. eapply keeps_ok; eauto.
Qed.
Lemma keeps_rung h : forallb keeps h = true -> all_rung h.
Proof. intros H c Hc. rewrite forallb_forall in H. apply H in Hc. discriminate. Qed.
Lemma dcur_A_valid o k s ps cs : coh s ps cs -> goodA s ps cs -> c_ok (dat s (Q FA o)) = true -> snd (dcur FA o k s) = Some (fresh_coils FA o cs ps).
Proof.
  intros H G Hq. unfold dcur. pose proof (get_cart_coh s ps cs H) as (H1 & H2 & _ & D & F). pose proof (goodA_cart s ps cs H G) as G1.
  destruct (get_cart s) as [s1 pts]. cbn [fst snd] in *. subst pts. pose proof (k_cs _ _ _ H1) as E1. rewrite E1. rewrite <- D in Hq.
  assert (A : forallb (fun i => fc_status s1 (FA, o, i)) (seq 0 (length cs)) = true).
  { apply forallb_forall. intros i Hi. apply in_seq in Hi. unfold fc_status. rewrite (G1 o Hq i) by lia. reflexivity. }
  rewrite A. cbn. f_equal. unfold fresh_coils. apply map_nth_seq2 with (d := (0, [])). intros i Hi. rewrite (G1 o Hq i Hi). cbn. now rewrite map_length, Nat.eqb_refl.
Qed.
(** right if the potential (of at least that order) was evaluated since the last change of points or coils *)
Theorem C42_potential_right_after_evaluation cs h1 h2 o o' k : all_rung h1 -> forallb keeps h2 = true -> ole o o' = true ->
  snd (step (DCur FA o k) (run (h1 ++ [Clear; Eval (Q FA o')] ++ h2) (new_bs cs))) =
    OArrs (fresh_coils FA o (last_cfg h1 cs) (last_pts h1 (PCart [v0]))) /\
  snd (step (DCur FA o' k) (run (h1 ++ [Eval (Q FA o')] ++ h2) (new_bs cs))) =
    OArrs (fresh_coils FA o' (last_cfg h1 cs) (last_pts h1 (PCart [v0]))).
Proof.
  intros H1 H2 Ho. assert (RA : forall a b s, run (a ++ b) s = run b (run a s)) by (induction a; intros; cbn; auto).
  rewrite !RA. pose proof (run_coh h1 _ _ _ (new_coh cs) H1) as K.
  assert (G0 : goodA (new_bs cs) (PCart [v0]) cs) by (intros q Hq; discriminate).
  pose proof (run_goodA h1 _ _ _ (new_coh cs) G0 H1) as G.
  set (s := run h1 (new_bs cs)) in *. set (ps := last_pts h1 (PCart [v0])) in *. set (cfg := last_cfg h1 cs) in *.
  assert (LK : forall h d e, forallb keeps h = true -> last_pts h d = d /\ last_cfg h e = e).
  { induction h as [|x h IH]; intros d e Hh; cbn in *; auto. apply andb_true_iff in Hh as [Hx Hh]. destruct x; try discriminate; apply IH; auto. }
  destruct (LK h2 ps cfg H2) as [LP LC].
  assert (FIN : forall s oo, coh s ps cfg -> goodA s ps cfg -> c_ok (dat s (Q FA oo)) = true ->
    snd (step (DCur FA oo k) (run h2 s)) = OArrs (fresh_coils FA oo cfg ps)).
  { intros s0 oo A B C. pose proof (run_coh h2 _ _ _ A (keeps_rung _ H2)) as A'. pose proof (run_goodA h2 _ _ _ A B (keeps_rung _ H2)) as B'.
    rewrite LP, LC in A', B'. pose proof (keeps_run (Q FA oo) h2 _ _ _ A H2 C) as C'. pose proof (dcur_A_valid oo k _ _ _ A' B' C') as E. cbn.
    destruct (dcur FA oo k (run h2 s0)). cbn in *. now rewrite E. }
  split; apply FIN.
  - apply (run_coh [Clear; Eval (Q FA o')] s ps cfg K). intros c [E|[E|[]]]; discriminate.
  - apply (run_goodA [Clear; Eval (Q FA o')] s ps cfg K G). intros c [E|[E|[]]]; discriminate.
  - cbn. unfold eval_base. cbn. pose proof (compute_coh FA o' (invalidate s) ps cfg (invalidate_coh _ _ _ K)) as (_ & E & _). now apply E.
  - apply (run_coh [Eval (Q FA o')] s ps cfg K). intros c [E|[]]; discriminate.
  - apply (run_goodA [Eval (Q FA o')] s ps cfg K G). intros c [E|[]]; discriminate.
  - cbn. destruct (eval_base_coh FA o' s ps cfg K) as (_ & _ & E). destruct (eval_base FA o' s). exact E.
Qed.
(** never evaluated: the per-coil potentials are returned as zeros *)
Definition zeroA (s : bs) : Prop := forall o i c, fc s (FA, o, i) = Some c -> exists m, c_dat c = repeat (zrow o) m.
Lemma zeroA_compute k s : zeroA s -> zeroA (compute FB k s).
Proof.
  intros Z o i c. unfold compute. destruct (get_cart s) as [s1 p] eqn:E. cbn. replace (fc s1) with (fc s).
  - apply Z.
  - unfold get_cart in E. destruct (c_ok (pcart s)); injection E as <- _; reflexivity.
Qed.
Lemma zeroA_base o s : zeroA s -> zeroA (fst (eval_base FB o s)).
Proof. intros Z. unfold eval_base. destruct (c_ok _); cbn; auto. now apply zeroA_compute. Qed.
Lemma zeroA_fill q impl s : (zeroA s -> zeroA (fst (impl s))) -> zeroA s -> zeroA (fst (fill q impl s)).
Proof. intros I Z. unfold fill. destruct (c_ok _); cbn; auto. specialize (I Z). destruct (impl s). exact I. Qed.
Lemma zeroA_ptcart s : zeroA s -> zeroA (fst (get_cart s)).
Proof. unfold get_cart. destruct (c_ok _); auto. Qed.
Lemma zeroA_ptcyl s : zeroA s -> zeroA (fst (get_cyl s)).
Proof. unfold get_cyl. destruct (c_ok _); auto. Qed.
Lemma zeroA_grad s : zeroA s -> zeroA (fst (eval_grad s)).
Proof.
  apply zeroA_fill. intros Z. pose proof (zeroA_base O0 s Z) as A. destruct (eval_base FB O0 s) as [s1 b]. cbn in *.
  pose proof (zeroA_base O1 s1 A) as B. destruct (eval_base FB O1 s1). exact B.
Qed.
Lemma zeroA_cyl q src s : (zeroA s -> zeroA (fst (src s))) -> zeroA s -> zeroA (fst (eval_cyl q src s)).
Proof. intros I. apply zeroA_fill. intros Z. specialize (I Z). destruct (src s) as [s1 b]. cbn in *. pose proof (zeroA_ptcyl s1 I) as X. destruct (get_cyl s1). exact X. Qed.
Lemma zeroA_goc s o i n : zeroA s -> exists m, c_dat (fc_goc o n (fc s (FA, o, i))) = repeat (zrow o) m.
Proof.
  intros Z. unfold fc_goc. destruct (fc s (FA, o, i)) as [c|] eqn:E; cbn; eauto. destruct (length (c_dat c) =? n)%nat; eauto.
Qed.
Lemma zeroA_dcur f o k s : zeroA s -> zeroA (fst (dcur f o k s)).
Proof.
  intros Z. unfold dcur. pose proof (zeroA_ptcart s Z) as Z1. destruct (get_cart s) as [s1 pts]. cbn [fst] in *.
  destruct (_ || _); [|exact Z1]. set (s2 := if forallb _ _ then s1 else compute FB k s1).
  assert (Z2 : zeroA s2). { unfold s2. destruct (forallb _ _); auto. now apply zeroA_compute. }
  intros o' i c. cbn. destruct (fam_eqb FA f && (onum o' =? onum o)%nat && (i <? length (coils s1))%nat) eqn:K; [|apply Z2].
  intros [= <-]. apply andb_true_iff in K as [K _]. apply andb_true_iff in K as [K K2]. apply Nat.eqb_eq, onum_inj in K2. apply fam_eqb_true in K. subst.
  now apply zeroA_goc.
Qed.
Lemma zeroA_run h : forall s, zeroA s -> forallb (fun o => negb (touches_A o)) h = true -> zeroA (run h s).
Proof.
  assert (IV : forall s, zeroA s -> zeroA (invalidate s)).
  { intros s Z o i c. cbn. destruct (fc s (FA, o, i)) as [c'|] eqn:E; [|discriminate]. intros [= <-]. cbn. eauto. }
  induction h as [|o h IH]; intros s Z H; cbn in *; auto. apply andb_true_iff in H as [H1 H2]. apply IH; auto.
  destruct o as [p|p|c b| |q| | |f o k]; cbn.
  - apply IV; auto.
  - apply IV; auto.
  - destruct b; [apply IV|]; exact Z.
  - apply IV; auto.
  - enough (zeroA (fst (eval q s))) by (destruct (eval q s); auto).
    destruct q as [[] o| | | | |]; try discriminate; cbn [eval].
    + now apply zeroA_base.
    + apply zeroA_fill; auto. intros _. pose proof (zeroA_base O0 s Z) as A. destruct (eval_base FB O0 s). exact A.
    + now apply zeroA_grad.
    + apply zeroA_cyl; auto. now apply zeroA_base.
    + apply zeroA_cyl; auto. now apply zeroA_grad.
  - pose proof (zeroA_ptcart s Z) as X. destruct (get_cart s). exact X.
  - pose proof (zeroA_ptcyl s Z) as X. destruct (get_cyl s). exact X.
  - pose proof (zeroA_dcur f o k s Z) as X. destruct (dcur f o k s). exact X.
Qed.
Theorem C42_potential_zero_when_never_evaluated cs h o k : all_rung h -> forallb (fun x => negb (touches_A x)) h = true -> ole o k = true ->
  snd (step (DCur FA o k) (run h (new_bs cs))) =
    OArrs (map (fun _ => repeat (zrow o) (length (cart_of (last_pts h (PCart [v0]))))) (last_cfg h cs)).
Proof.
  intros H T Hk. pose proof (run_coh h _ _ _ (new_coh cs) H) as K.
  pose proof (zeroA_run h (new_bs cs) ltac:(intros ? ? ? E; discriminate) T) as Z. set (s := run h (new_bs cs)) in *.
  cbn. unfold dcur. pose proof (get_cart_coh s _ _ K) as (K1 & E & _). pose proof (zeroA_ptcart s Z) as Z1. destruct (get_cart s) as [s1 pts]. cbn [fst snd] in *. subst pts.
  rewrite Hk, orb_true_r. rewrite (k_cs _ _ _ K1). set (s2 := if forallb _ (seq _ _) then s1 else compute FB k s1).
  assert (Z2 : zeroA s2). { unfold s2. destruct (forallb _ (seq _ _)); auto. now apply zeroA_compute. }
  cbn [snd]. f_equal. apply map_nth_seq2 with (d := (0, [])). intros i Hi.
  unfold fc_goc. destruct (fc s2 (FA, o, i)) as [c|] eqn:Ec; cbn; auto. destruct (Z2 _ _ _ Ec) as [m Em]. rewrite Em, repeat_length.
  destruct (m =? _)%nat eqn:Em'; auto. apply Nat.eqb_eq in Em'. now rewrite Em'.
Qed.
(** evaluated, and then the same number of other points set: the potentials at the old points are returned *)
Theorem C42_potential_stale_after_set_points cs h o k p : all_rung h -> ole o k = true ->
  length p = length (cart_of (last_pts h (PCart [v0]))) ->
  snd (step (DCur FA o k) (run (h ++ [Eval (Q FA o); SetCart p]) (new_bs cs))) =
    OArrs (fresh_coils FA o (last_cfg h cs) (last_pts h (PCart [v0]))).
Proof.
  intros H Hk L. assert (RA : forall a b s, run (a ++ b) s = run b (run a s)) by (induction a; intros; cbn; auto). rewrite RA.
  pose proof (run_coh h _ _ _ (new_coh cs) H) as K.
  assert (G0 : goodA (new_bs cs) (PCart [v0]) cs) by (intros q Hq; discriminate).
  pose proof (run_goodA h _ _ _ (new_coh cs) G0 H) as G. set (s := run h (new_bs cs)) in *.
  set (ps := last_pts h (PCart [v0])) in *. set (cfg := last_cfg h cs) in *.
  cbn [run step]. destruct (eval_base_coh FA o s ps cfg K) as (K1 & _ & Ok). pose proof (goodA_base FA o s ps cfg K G) as G1.
  cbn [eval]. destruct (eval_base FA o s) as [s1 a]. cbn [fst snd] in *.
  unfold dcur. change (get_cart (set_points_cart p s1)) with (set_points_cart p s1, p). cbv beta iota zeta.
  rewrite Hk, orb_true_r. cbn [coils set_points_cart invalidate]. rewrite (k_cs _ _ _ K1).
  set (s2 := if forallb _ _ then _ else _). cbn [snd].
  assert (X : forall i, (i < length cfg)%nat -> exists b, fc s2 (FA, o, i) = Some (Cell b (map (krow FA o (snd (nth i cfg (0, [])))) (cart_of ps)))).
  { intros i Hi. exists false. unfold s2. destruct (forallb _ _); [cbn; now rewrite (G1 o Ok i Hi)|].
    pose proof (compute_coh FB k _ _ _ (set_cart_coh p s1 ps cfg K1)) as (_ & _ & _ & C). rewrite C by reflexivity. cbn. now rewrite (G1 o Ok i Hi). }
  f_equal. unfold fresh_coils. apply map_nth_seq2 with (d := (0, [])). intros i Hi. destruct (X i Hi) as [b ->]. cbn. now rewrite map_length, L, Nat.eqb_refl.
Qed.

(** ** Concrete cases *)
Definition ex_coil : list qpt := [(V3 0 0 0, V3 0 1 0)].
Lemma ex_kA : krow FA O0 ex_coil (V3 1 0 0) = [V3 0 (/ 10 ^ 7) 0].
Proof.
  unfold krow, ex_coil, coil_field, kA, sub3, normsq, dot3, rsqrt. cbn [map sum3 fst snd vx vy vz length].
  replace ((1 - 0) * (1 - 0) + (0 - 0) * (0 - 0) + (0 - 0) * (0 - 0)) with 1 by ring. rewrite sqrt_1. f_equal.
  apply v3_eq; cbn [vx vy vz scal3 add3 v0]; change (INR 1) with 1; field; apply pow_nonzero; lra.
Qed.
Lemma ex_kB I y : fresh (Q FB O0) [(I, ex_coil)] (V3 1 0 0) y = [V3 0 0 (- I / 10 ^ 7)].
Proof.
  unfold fresh, ex_coil, coils_field, coil_field, kB, sub3, normsq, dot3, rsqrt. cbn [map sum3 fst snd vx vy vz length].
  replace ((1 - 0) * (1 - 0) + (0 - 0) * (0 - 0) + (0 - 0) * (0 - 0)) with 1 by ring. rewrite sqrt_1. f_equal.
  apply v3_eq; cbn [vx vy vz scal3 add3 v0 cross]; change (INR 1) with 1; field; apply pow_nonzero; lra.
Qed.
(** the statement C41 does not hold without its hypothesis: current 1 -> 2 with everything fixed *)
Theorem C41_unrung_refuted : exists cs h q c',
  snd (step (Eval q) (run (h ++ [Dofs c' false]) (new_bs cs))) <> OArr (fresh_arr q c' (last_pts h (PCart [v0]))).
Proof.
  exists [(1, ex_coil)], [SetCart [V3 1 0 0]; Eval (Q FB O0)], (Q FB O0), [(2, ex_coil)].
  change ([SetCart [V3 1 0 0]; Eval (Q FB O0)] ++ [Dofs [(2, ex_coil)] false]) with ([SetCart [V3 1 0 0]] ++ [Eval (Q FB O0); Dofs [(2, ex_coil)] false]).
  rewrite C41_stale_when_everything_is_fixed by (intros c [E|[]]; discriminate).
  intros E. assert (E' : fresh (Q FB O0) [(1, ex_coil)] (V3 1 0 0) (to_cyl (V3 1 0 0)) = fresh (Q FB O0) [(2, ex_coil)] (V3 1 0 0) (to_cyl (V3 1 0 0)))
    by exact (f_equal (fun o => match o with OArr a => nth 0 a [] | _ => [] end) E).
  rewrite !ex_kB in E'. injection E' as E'. assert (P : 0 < / 10 ^ 7) by (apply Rinv_0_lt_compat, pow_lt; lra). unfold Rdiv in E'. nra.
Qed.
(** ... and the current gradient of A_vjp on a field that was only used for B is wrong *)
Theorem C42_potential_per_coil_refuted : exists cs h o k, all_rung h /\ ole o k = true /\
  snd (step (DCur FA o k) (run h (new_bs cs))) <> OArrs (fresh_coils FA o (last_cfg h cs) (last_pts h (PCart [v0]))).
Proof.
  exists [(1, ex_coil)], [SetCart [V3 1 0 0]; Eval (Q FB O0)], O0, O0.
  assert (A : all_rung [SetCart [V3 1 0 0]; Eval (Q FB O0)]) by (intros c [E|[E|[]]]; discriminate).
  split; auto. split; auto. rewrite C42_potential_zero_when_never_evaluated by auto.
  intros E. assert (E' : [v0] = krow FA O0 ex_coil (V3 1 0 0)) by exact (f_equal (fun o => match o with OArrs l => nth 0 (nth 0 l []) [] | _ => [] end) E).
  rewrite ex_kA in E'. injection E' as E'. assert (P : 0 < / 10 ^ 7) by (apply Rinv_0_lt_compat, pow_lt; lra). lra.
Qed.
Example C41_case : all_rung [SetCart [V3 1 0 0]; Eval (Q FB O0); Dofs [(2, ex_coil)] true; Eval QGrad; SetCyl [V3 1 1 0; V3 2 (-1) 0]; Eval QBcyl].
Proof. intros c H. repeat (destruct H as [H|H]; [discriminate|]). exact H. Qed.

(** ** C62: the derived quantities are what their names say *)
Lemma sub3_0 a : sub3 a v0 = a. Proof. v3; ring. Qed.
Theorem C62_GradAbsB_is_gradient_of_AbsB cs x y k : off_all x cs -> coils_field kB cs x <> v0 -> (k < 3)%nat ->
  D (fun s => vx (nth 0 (fresh QAbs cs (along x k s) y) v0)) 0 (coord (nth 0 (fresh QGrad cs x y) v0) k).
Proof.
  intros A N Hk. cbn [fresh nth vx]. pose proof (C56_dB_is_derivative_of_B cs x A k) as E.
  set (B := fun s => coils_field kB cs (along x k s)) in *.
  assert (P : 0 < normsq (B 0)).
  { unfold B. rewrite along_0. rewrite <- (sub3_0 (coils_field kB cs x)). now apply normsq_pos. }
  pose proof (D_dot B B 0 _ _ E E) as F. pose proof (derivable_pt_lim_sqrt (normsq (B 0)) P) as S.
  pose proof (derivable_pt_lim_comp _ _ 0 _ _ F S) as G. eapply D_val; [|exact G].
  unfold B in *. rewrite along_0 in *. pose proof (sqrt_lt_R0 _ P).
  destruct k as [|[|[|k]]]; [| | |lia]; cbn [coord vx vy vz nth]; unfold dot3; field; lra.
Qed.
(** (B_r, B_phi, B_z) are the components along the unit vectors of the point's angle; the norm is unchanged *)
Theorem C62_cylindrical_components_rotate cs x y q q' : (q = QBcyl /\ q' = Q FB O0 \/ q = QAcyl /\ q' = Q FA O0 \/ q = QGradcyl /\ q' = QGrad) ->
  let v := nth 0 (fresh q' cs x y) v0 in let w := nth 0 (fresh q cs x y) v0 in
  normsq w = normsq v /\
  v = add3 (scal3 (vx w) (V3 (cos (vy y)) (sin (vy y)) 0)) (add3 (scal3 (vy w) (V3 (- sin (vy y)) (cos (vy y)) 0)) (scal3 (vz w) (V3 0 0 1))).
Proof.
  intros H. assert (K : forall v : vec3, let w := V3 (cos (vy y) * vx v + sin (vy y) * vy v) (cos (vy y) * vy v - sin (vy y) * vx v) (vz v) in
    normsq w = normsq v /\ v = add3 (scal3 (vx w) (V3 (cos (vy y)) (sin (vy y)) 0)) (add3 (scal3 (vy w) (V3 (- sin (vy y)) (cos (vy y)) 0)) (scal3 (vz w) (V3 0 0 1)))).
  { intros [a b c]. pose proof (sin2_cos2 (vy y)) as E. unfold Rsqr in E. set (cc := cos (vy y)) in *. set (ss := sin (vy y)) in *.
    assert (E' : ss * ss = 1 - cc * cc) by lra.
    split; [unfold normsq, dot3; cbn; ring [E']|apply v3_eq; cbn; ring [E']]. }
  destruct H as [[-> ->]|[[-> ->]|[-> ->]]]; apply K.
Qed.
Example C62_case : off_all (V3 1 0 0) [(1, ex_coil)] /\ coils_field kB [(1, ex_coil)] (V3 1 0 0) <> v0.
Proof.
  split.
  - intros c [<-|[]] q [<-|[]] E. injection E. lra.
  - intros E. pose proof (ex_kB 1 v0) as K. cbn [fresh] in K. rewrite E in K. injection K as K.
    assert (P : 0 < / 10 ^ 7) by (apply Rinv_0_lt_compat, pow_lt; lra). unfold Rdiv in K. nra.
Qed.
