(** C24: weighted sums of objectives. *)
From Verif Require Import ListAux VecAux DofsModel DofsSpec GraphModel GraphLists GraphInv GraphSpec
  GraphPres GraphPres2 GraphPres3 GraphFacts GraphTable GraphExec GraphProps DerivModel DerivProps GradProps.

(** the weighted leaves of an expression *)
Fixpoint terms (e : expr) : list (R * nat) :=
  match e with
  | Leaf n => [(1%R, n)]
  | Scaled c e => map (fun t => ((c * fst t)%R, snd t)) (terms e)
  | Sum l => concat (map terms l)
  end.
(** no OptimizableSum of an empty list anywhere *)
Fixpoint no_empty_sum (e : expr) : Prop :=
  match e with
  | Leaf _ => True
  | Scaled _ e => no_empty_sum e
  | Sum l => l <> [] /\ (fix all l := match l with [] => True | e :: r => no_empty_sum e /\ all r end) l
  end.

Section ExprInd.
Variable P : expr -> Prop.
Hypothesis HL : forall n, P (Leaf n).
Hypothesis HS : forall c e, P e -> P (Scaled c e).
Hypothesis HM : forall l, Forall P l -> P (Sum l).
Fixpoint expr_rect' (e : expr) : P e :=
  match e with
  | Leaf n => HL n | Scaled c e => HS c e (expr_rect' e)
  | Sum l => HM l ((fix go l : Forall P l := match l with [] => Forall_nil P | e :: r => Forall_cons e (expr_rect' e) (go r) end) l)
  end.
End ExprInd.

Lemma no_empty_all l : no_empty_sum (Sum l) -> l <> [] /\ forall e, In e l -> no_empty_sum e.
Proof. cbn. intros [N H]. split; auto. clear N. induction l as [|x l IH]; [intros e []|]. destruct H. intros e [<-|H']; auto. Qed.

Section E.
Variables (leafJ : nat -> R).

Theorem C24_value e : evalJ leafJ e = rsuml (map (fun t => (fst t * leafJ (snd t))%R) (terms e)).
Proof.
  induction e using expr_rect'.
  - cbn. ring.
  - cbn [evalJ terms]. rewrite IHe, map_map, <- rsuml_map_scale. f_equal. apply map_ext. intros [w n]. cbn. ring.
  - cbn [evalJ terms].
    enough (G : forall acc, (fix go acc l := match l with [] => acc | e :: r => go (acc + evalJ leafJ e)%R r end) acc l =
              (acc + rsuml (map (fun t => (fst t * leafJ (snd t))%R) (concat (map terms l))))%R).
    { rewrite G. ring. }
    induction H as [|e l He Hl IH]; intros acc; cbn [map concat rsuml]; [ring|].
    rewrite IH, He, map_app, rsuml_app. ring.
Qed.

Variables (size : nat -> nat) (leafdJ : nat -> heap -> heap * nat) (G : nat -> nat -> list R).
(** the leaves: dJ(partials=True) of leaf [n] returns, whatever else is in memory, a Derivative
    meaning [G n], without changing anything that exists *)
Hypothesis Hleaf : forall n h h' d, leafdJ n h = (h', d) ->
  extends h h' /\ ok size h' d /\ forall k, sem size h' d k = G n k.

Definition lincomb (ts : list (R * nat)) (k : nat) : list R := vsum (size k) (map (fun t => vscale (fst t) (G (snd t) k)) ts).

Lemma G_length n k : length (G n k) = size k.
Proof using Hleaf.
  destruct (leafdJ n (mkHeap (fun _ => []) 0 (fun _ => []) 0)) as [h' d] eqn:E.
  destruct (Hleaf _ _ _ _ E) as (_ & O & S). rewrite <- S. apply asem_length. apply O.
Qed.
Lemma terms_length ts k v : In v (map (fun t => vscale (fst t) (G (snd t) k)) ts) -> length v = size k.
Proof using Hleaf. intros H. apply in_map_iff in H. destruct H as (t & <- & _). now rewrite vscale_length, G_length. Qed.
Lemma lincomb_app ts ts' k : lincomb (ts ++ ts') k = vadd (lincomb ts k) (lincomb ts' k).
Proof using Hleaf. unfold lincomb. rewrite map_app. apply vsum_app. intros v. rewrite <- map_app. apply terms_length. Qed.

Theorem C24_derivative e : no_empty_sum e -> forall h, exists h' d,
  evaldJ leafdJ e h = (h', inl (DDer d)) /\ extends h h' /\ ok size h' d /\
  forall k, sem size h' d k = vsum (size k) (map (fun t => vscale (fst t) (G (snd t) k)) (terms e)).
Proof using Hleaf.
  induction e as [n|c e IHe|l H] using expr_rect'; intros NE h.
  - cbn. destruct (leafdJ n h) as [h' d] eqn:E. destruct (Hleaf _ _ _ _ E) as (X & O & S).
    exists h', d. split; auto. split; auto. split; auto. intros k. rewrite S, vscale_1. symmetry. apply vadd_zeros_r. apply G_length.
  - cbn [evaldJ]. destruct (IHe NE h) as (h1 & d1 & E & X & O & S). rewrite E. cbn [dv_scale].
    destruct (C22_mul size c h1 d1 O) as (h2 & d2 & E2 & O2 & X2 & _ & S2). rewrite E2.
    exists h2, d2. split; auto. split; [eapply extends_trans; eauto|]. split; auto.
    intros k. rewrite S2, S. cbn [terms]. rewrite map_map, <- vsum_scale, map_map. f_equal. apply map_ext. intros [w n]. cbn. apply vscale_vscale.
  - apply no_empty_all in NE. destruct NE as [NE0 NE]. cbn [evaldJ terms].
    assert (A : forall l, Forall (fun e => no_empty_sum e -> forall h, exists h' d, evaldJ leafdJ e h = (h', inl (DDer d)) /\ extends h h' /\
         ok size h' d /\ forall k, sem size h' d k = lincomb (terms e) k) l -> (forall e, In e l -> no_empty_sum e) ->
      forall h d ts, ok size h d -> (forall k, sem size h d k = lincomb ts k) -> exists h' d',
      sum_loop (evaldJ leafdJ) h (DDer d) l = (h', inl (DDer d')) /\ extends h h' /\ ok size h' d' /\
      forall k, sem size h' d' k = lincomb (ts ++ concat (map terms l)) k).
    { clear - Hleaf. induction 1 as [|e l He Hl IH]; intros NE h d ts O S.
      - exists h, d. split; auto. split; [apply extends_refl|]. split; auto. intros k. cbn. now rewrite app_nil_r.
      - destruct (He (NE e (or_introl eq_refl)) h) as (h1 & d1 & E1 & X1 & O1 & S1). cbn [sum_loop]. rewrite E1. cbn [dv_add].
        destruct (extends_ok size h h1 d X1 O) as [O' S'].
        destruct (C22_add size h1 d d1 O' O1) as (h2 & d2 & E2 & O2 & X2 & _ & S2). rewrite E2.
        destruct (IH (fun e' I => NE e' (or_intror I)) h2 d2 (ts ++ terms e) O2) as (h3 & d3 & E3 & X3 & O3 & S3).
        { intros k. rewrite S2, S', S, S1, lincomb_app. reflexivity. }
        exists h3, d3. split; auto. split; [eapply extends_trans; [exact X1|eapply extends_trans; eauto]|]. split; auto.
        intros k. rewrite S3. cbn. now rewrite app_assoc. }
    destruct l as [|e l]; [congruence|]. inversion_clear H as [|? ? He Hl].
    destruct (He (NE e (or_introl eq_refl)) h) as (h1 & d1 & E1 & X1 & O1 & S1). cbn [sum_loop]. rewrite E1. cbn [dv_add].
    destruct (Req_EM_T 0 0) as [_|Z]; [|lra].
    destruct (A l Hl (fun e' I => NE e' (or_intror I)) h1 d1 (terms e) O1 S1) as (h2 & d2 & E2 & X2 & O2 & S2).
    exists h2, d2. split; [exact E2|]. split; [eapply extends_trans; eauto|]. split; [exact O2|exact S2].
Qed.
End E.

(** [obj.dJ()] of a composite is the same combination of the gradients of its terms with respect to
    the composite's dofs *)
Theorem C24_gradient {V} (s : @st V) self leafdJ G e h : reachable s -> self < nobj s ->
  (forall n h h' d, leafdJ n h = (h', d) ->
    extends h h' /\ ok (size_of s) h' d /\ forall k, sem (size_of s) h' d k = G n k) ->
  no_empty_sum e ->
  (exists D, uses s self D /\ exists i, In i (free_positions (cel s D))) ->
  forall grads : nat -> list R,
  (forall w n, In (w, n) (terms e) -> let (h1, d) := leafdJ n h in exists h2, d_call s h1 d self = (h2, inl (grads n))) ->
  exists h', gradient leafdJ s self e h = (h', inl (vsum (dof_size s self) (map (fun t => vscale (fst t) (grads (snd t))) (terms e)))).
Proof.
  intros R Hs Hl NE F grads Hg. apply reachable_inv in R. rename R into I.
  destruct (C24_derivative (size_of s) leafdJ G Hl e NE h) as (h1 & d & E & X & O & S).
  unfold gradient. rewrite E. destruct (call_spec s h1 d self I Hs O F) as (h2 & E2 & _). rewrite E2.
  exists h2. f_equal. f_equal.
  assert (GL : forall n k, length (G n k) = size_of s k) by (intros; eapply G_length; eauto).
  (* the gradient as a function of the meaning *)
  set (blk := fun (M : nat -> list R) k => gather (d_free (cel s (dof_of s k))) (vsum (dofs_len (cel s (dof_of s k))) (map M (users s (dof_of s k))))).
  assert (HG : forall w n, In (w, n) (terms e) -> grads n = concat (map (blk (G n)) (uniq_of s self))).
  { intros w n Hn. specialize (Hg w n Hn). destruct (leafdJ n h) as [h3 d3] eqn:E3. destruct (Hl _ _ _ _ E3) as (_ & O3 & S3).
    destruct Hg as (h4 & E4). destruct (call_spec s h3 d3 self I Hs O3 F) as (h5 & E5 & _). rewrite E5 in E4. injection E4 as _ <-.
    f_equal. apply map_ext. intros k. unfold block, blk, total_partial. f_equal. f_equal. apply map_ext. intros q. apply S3. }
  assert (HB : concat (map (block s h1 d) (uniq_of s self)) =
     concat (map (blk (fun q => vsum (size_of s q) (map (fun t => vscale (fst t) (G (snd t) q)) (terms e)))) (uniq_of s self))).
  { f_equal. apply map_ext. intros k. unfold block, blk, total_partial. f_equal. f_equal. apply map_ext. intros q. apply S. }
  rewrite HB. clear HB E E2 S O X Hg.
  rewrite (map_ext_in _ (fun t => vscale (fst t) (concat (map (blk (G (snd t))) (uniq_of s self))))) by (intros [w n] Ht; cbn; erewrite HG; eauto).
  clear HG. rewrite dof_size_eq by auto.
  assert (BL : forall M k, (forall q, dof_of s q = dof_of s k -> length (M q) = dofs_len (cel s (dof_of s k))) -> length (blk M k) = reduced_len (cel s (dof_of s k))).
  { intros M k HM. unfold blk, reduced_len. apply gather_length_count. apply vsum_length. intros v Hv. apply in_map_iff in Hv. destruct Hv as (q & <- & Hq).
    apply HM. unfold users in Hq. apply filter_In in Hq. now apply Nat.eqb_eq. }
  assert (UQ : forall q k, In q (users s (dof_of s k)) -> size_of s q = dofs_len (cel s (dof_of s k))).
  { intros q k Hq. unfold users in Hq. apply filter_In in Hq. destruct Hq as [_ Hq]. apply Nat.eqb_eq in Hq. unfold size_of. now rewrite Hq. }
  assert (GQ : forall n q k, dof_of s q = dof_of s k -> length (G n q) = dofs_len (cel s (dof_of s k))).
  { intros n q k Hq. rewrite GL. unfold size_of. now rewrite Hq. }
  induction (terms e) as [|[w n] ts IH]; cbn [map vsum fst snd].
  - (* zero *)
    clear - UQ. induction (uniq_of s self) as [|k us IHu]; auto. cbn [map concat list_sum fold_right].
    fold (list_sum (map (fun o => reduced_len (cel s (dof_of s o))) us)). cbn in IHu. rewrite IHu.
    replace (zeros (_ + _)) with (zeros (reduced_len (cel s (dof_of s k))) ++ zeros (list_sum (map (fun o => reduced_len (cel s (dof_of s o))) us))) by (symmetry; apply repeat_app). f_equal.
    unfold blk. erewrite (map_ext_in _ (fun _ => zeros (dofs_len (cel s (dof_of s k))))) by (intros q Hq; now rewrite (UQ q k Hq)).
    replace (vsum _ _) with (zeros (dofs_len (cel s (dof_of s k)))).
    + unfold dofs_len. apply gather_zeros.
    + induction (users s (dof_of s k)) as [|q qs IHq]; cbn; auto. rewrite <- IHq. symmetry. apply vadd_zeros_r. apply zeros_length.
  - rewrite <- IH. clear IH.
    set (M := fun q => vsum (size_of s q) (map (fun t => vscale (fst t) (G (snd t) q)) ts)).
    assert (ML : forall q, length (M q) = size_of s q).
    { intros q. unfold M. apply vsum_length. intros v Hv. apply in_map_iff in Hv. destruct Hv as (t & <- & _). now rewrite vscale_length. }
    induction (uniq_of s self) as [|k us IHu]; auto. cbn [map concat].
    assert (L1 : length (blk (G n) k) = reduced_len (cel s (dof_of s k))) by (apply BL; intros; now apply GQ).
    assert (L2 : length (blk M k) = reduced_len (cel s (dof_of s k))).
    { apply BL. intros q Hq. rewrite ML. unfold size_of. now rewrite Hq. }
    rewrite IHu. assert (SA : forall u v, vscale w (u ++ v) = vscale w u ++ vscale w v) by (intros; apply map_app). rewrite SA.
    assert (VA : forall a b c d : list R, length a = length c -> vadd (a ++ b) (c ++ d) = vadd a c ++ vadd b d).
    { clear. unfold vadd. induction a as [|x a IH]; intros b [|y c] d H; cbn in *; try discriminate; auto. now rewrite IH by lia. }
    rewrite VA by (rewrite vscale_length; lia). f_equal.
    unfold blk. set (N := dofs_len (cel s (dof_of s k))).
    assert (VM : forall qs, (forall q, In q qs -> size_of s q = N) ->
       vsum N (map (fun q => vadd (vscale w (G n q)) (M q)) qs) = vadd (vscale w (vsum N (map (G n) qs))) (vsum N (map M qs))).
    { induction qs as [|q qs IHq]; intros Hq; cbn.
      - rewrite vscale_zeros. symmetry. apply vadd_zeros_r. apply zeros_length.
      - rewrite IHq by (intros; apply Hq; now right). rewrite vscale_vadd.
        set (A := vscale w (G n q)). set (B := M q). set (C := vscale w (vsum N (map (G n) qs))). set (D := vsum N (map M qs)).
        rewrite <- (vadd_assoc A B), (vadd_assoc B C D), (vadd_comm B C), <- (vadd_assoc C B D), vadd_assoc. reflexivity. }
    rewrite VM by (intros q Hq; now apply UQ).
    rewrite gather_vadd, gather_scale. + reflexivity.
    + rewrite vscale_length. apply vsum_length. intros v Hv. apply in_map_iff in Hv. destruct Hv as (q & <- & Hq). rewrite GL. now apply UQ.
    + apply vsum_length. intros v Hv. apply in_map_iff in Hv. destruct Hv as (q & <- & Hq). rewrite ML. now apply UQ.
Qed.

(** the order of an empty sum matters: Sum [Sum []; x] works, Sum [x; Sum []] raises *)
Theorem C24_empty_sum_refuted (leafdJ : nat -> heap -> heap * nat) n h :
  evaldJ leafdJ (Sum [Sum []; Leaf n]) h = (let (h', d) := leafdJ n h in (h', inl (DDer d))) /\
  evaldJ leafdJ (Sum [Leaf n; Sum []]) h = (let (h', d) := leafdJ n h in (h', inr EAttribute)) /\
  forall (V : Type) (s : @st V) self, gradient leafdJ s self (Sum []) h = (h, inr EType).
Proof.
  cbn [evaldJ sum_loop dv_add]. destruct (leafdJ n h) as [h' d].
  destruct (Req_EM_T 0 0) as [_|Z]; [|lra]. cbn. split; [|split]; auto.
  replace (0 + 0)%R with 0%R by lra. now destruct (Req_EM_T 0 0).
Qed.

(** ** Concrete state: objects 0 and 1 share one DOFs (second dof fixed), object 2 has one dof and depends on both *)
Definition gr_ops {V} (u v w lo hi : V) : list (@gop V) :=
  [ GNew 0 (inl (mkDofs [u; v] [true; false] [lo; lo] [hi; hi] [0; 1])) false false [];
    GNew 1 (inr 0) false false [];
    GNew 2 (inl (mkDofs [w] [true] [lo] [hi] [0])) false false [0; 1] ].
Definition gr_gen {V} (u v w lo hi : V) : @st V := match run_ops 10 init_st (gr_ops u v w lo hi) with Some s => s | None => init_st end.
Lemma gr_run {V} (u v w lo hi : V) : run_ops 10 init_st (gr_ops u v w lo hi) = Some (gr_gen u v w lo hi).
Proof. vm_compute. reflexivity. Qed.
Definition gr_st : @st R := gr_gen 1%R 2%R 5%R 0%R 9%R.
Lemma gr_reach : reachable gr_st. Proof. eapply run_ops_reachable; [constructor|apply gr_run]. Qed.
Definition gr_heap : heap := mkHeap (fun a => match a with 0 => [10; 20] | _ => [30; 40] end%R) 2 (fun d => match d with 0 => [(0, 0); (1, 1)] | _ => [] end) 1.
Lemma gr_ok : ok (size_of gr_st) gr_heap 0.
Proof.
  split; [cbn; lia|]. split; [cbn; repeat constructor; cbn; intuition congruence|].
  cbn. intros k a [H|[H|[]]]; injection H as <- <-; split; auto; lia.
Qed.
Lemma gr_free : exists D, uses gr_st 2 D /\ exists i, In i (free_positions (cel gr_st D)).
Proof. exists 1. split; [exists 2; split; auto; reflexivity|]. exists 0. vm_compute. auto. Qed.
Example C23_nonvacuous : reachable gr_st /\ ok (size_of gr_st) gr_heap 0 /\ dof_size gr_st 2 = 2 /\ r_idx (fre gr_st 2) = [(0, (0, 1)); (2, (1, 2))] /\
  snd (d_call gr_st gr_heap 0 2) = inl [40; 0]%R.
Proof.
  split; [exact gr_reach|]. split; [exact gr_ok|]. split; [vm_compute; reflexivity|]. split; [vm_compute; reflexivity|].
  transitivity (@inl (list R) err [(0 + 10 + 30)%R; (0 + 0)%R]); [cbv -[Rplus IZR]; reflexivity|]. f_equal. f_equal; [lra|]. f_equal. lra.
Qed.
(** shared DOFs outside the lineage: object 0's gradient includes the contribution of object 1 *)
Example C23_shared_dofs_outside_lineage : ~ Anc gr_st 1 0 /\ snd (d_call gr_st gr_heap 0 0) = inl [40]%R.
Proof.
  split.
  - intros H. apply (C09_ancestors_are_the_closure gr_st 0 gr_reach) in H; [vm_compute in H; contradiction|vm_compute; lia].
  - transitivity (@inl (list R) err [(0 + 10 + 30)%R]); [cbv -[Rplus IZR]; reflexivity|]. f_equal. f_equal. lra.
Qed.
(** a leaf that builds its Derivative {0: [n, 0]} anew on each call *)
Definition gr_leaf (n : nat) (h : heap) : heap * nat :=
  let (h1, a) := new_arr h [INR n; 0%R] in new_dict h1 [(0, a)].
Definition gr_G (n k : nat) : list R := if k =? 0 then [INR n; 0%R] else zeros (size_of gr_st k).
Example C24_nonvacuous :
  (forall n h h' d, gr_leaf n h = (h', d) ->
    extends h h' /\ ok (size_of gr_st) h' d /\ forall k, sem (size_of gr_st) h' d k = gr_G n k) /\
  no_empty_sum (Sum [Scaled 2 (Leaf 3); Scaled 5 (Sum [Leaf 7; Leaf 3])]) /\
  terms (Sum [Scaled 2 (Leaf 3); Scaled 5 (Sum [Leaf 7; Leaf 3])]) = [((2 * 1)%R, 3); ((5 * 1)%R, 7); ((5 * 1)%R, 3)].
Proof.
  split; [|cbn; repeat split; auto; discriminate].
  intros n h h' d E. unfold gr_leaf in E. cbn in E. injection E as <- <-. split; [|split].
  - split; [cbn; lia|]. split; [cbn; lia|]. split; intros; cbn; apply fup_other; lia.
  - split; [cbn; lia|]. cbn. rewrite fup_same. split; [cbn; repeat constructor; auto|].
    intros k a [H|[]]. injection H as <- <-. cbn. rewrite fup_same. split; [lia|reflexivity].
  - intros k. unfold sem, gr_G, asem. cbn. rewrite fup_same. cbn [lookup]. rewrite (Nat.eqb_sym k 0). destruct (0 =? k); auto. cbn. now rewrite fup_same.
Qed.
