(** Aliasing of the value arrays of DOFs (src/simsopt/_core/optimizable.py).

    numpy arrays live in a heap; a view is (array, offset, length).  Simplified: only the value
    array [_x] is modelled (bounds and status arrays behave alike), views are contiguous, all arrays
    have dtype double (so [np.asarray(x, dtype=double)] returns the array itself, no copy). *)
From Verif Require Import ListAux DofsModel.

Section A.
Context {V : Type}.

Record vw := mkV { v_addr : nat; v_off : nat; v_len : nat }.
Definition heap := nat -> list V.

(** the numbers seen through a view *)
Definition rd (H : heap) (w : vw) : list V := firstn (v_len w) (skipn (v_off w) (H (v_addr w))).
(** in-place assignment through a view: w[:] = l *)
Definition wr (H : heap) (w : vw) (l : list V) : heap :=
  fun a => if a =? v_addr w
           then firstn (v_off w) (H a) ++ l ++ skipn (v_off w + v_len w) (H a)
           else H a.

(** a DOFs instance: the view it stores as [_x], its free mask *)
Record ast := mkA { a_heap : heap; a_next : nat; a_dofs : list (vw * list bool) }.

Definition xs (s : ast) (d : nat) : list V :=
  match nth_error (a_dofs s) d with Some (w, _) => rd (a_heap s) w | None => [] end.

Inductive aop :=
| AAlloc (l : list V)                 (* user: a = np.array(l) *)
| ANew (w : vw) (m : list bool)       (* DOFs(x = view): optimizable.py:97 and 120, np.asarray, no copy *)
| AFull (d : nat) (w : vw)            (* dofs.full_x = view: 347-349, rebinding, no copy *)
| AFree (d : nat) (l : list V)        (* dofs.free_x = l: 321-323, in place *)
| ASet (d i : nat) (v : V)            (* dofs.set(i, v): 251, in place *)
| AUser (w : vw) (i : nat) (v : V).   (* user: view[i] = v, on an own array or on one returned by full_x (334) *)

Definition astep (s : ast) (o : aop) : ast :=
  let H := a_heap s in
  match o with
  | AAlloc l => mkA (fun a => if a =? a_next s then l else H a) (S (a_next s)) (a_dofs s)
  | ANew w m => if v_len w =? length m then mkA H (a_next s) (a_dofs s ++ [(w, m)]) else s
  | AFull d w => match nth_error (a_dofs s) d with
                 | Some (w0, m) => if v_len w0 =? v_len w then mkA H (a_next s) (upd d (w, m) (a_dofs s)) else s
                 | None => s end
  | AFree d l => match nth_error (a_dofs s) d with
                 | Some (w0, m) => if length (gather m m) =? length l
                                   then mkA (wr H w0 (scatter m (rd H w0) l)) (a_next s) (a_dofs s) else s
                 | None => s end
  | ASet d i v => match nth_error (a_dofs s) d with
                  | Some (w0, m) => mkA (wr H w0 (upd i v (rd H w0))) (a_next s) (a_dofs s)
                  | None => s end
  | AUser w i v => mkA (wr H w (upd i v (rd H w))) (a_next s) (a_dofs s)
  end.

(** specification vocabulary *)
Definition disjoint (w1 w2 : vw) : Prop :=
  v_addr w1 <> v_addr w2 \/ v_off w1 + v_len w1 <= v_off w2 \/ v_off w2 + v_len w2 <= v_off w1.
Definition inside (s : ast) (w : vw) : Prop :=
  v_addr w < a_next s /\ v_off w + v_len w <= length (a_heap s (v_addr w)).
(** the array handed in overlaps no array already held by another DOFs *)
Definition fresh_for (s : ast) (w : vw) : Prop :=
  inside s w /\ forall d w' m, nth_error (a_dofs s) d = Some (w', m) -> disjoint w w'.
Definition careful (s : ast) (o : aop) : Prop :=
  match o with
  | ANew w _ | AFull _ w | AUser w _ _ => fresh_for s w
  | _ => True
  end.
(** the DOFs an operation is applied to *)
Definition on (o : aop) (d : nat) : Prop :=
  match o with AFull d' _ | AFree d' _ | ASet d' _ _ => d' = d | _ => False end.

Inductive ahist : ast -> list aop -> ast -> Prop :=
| ah_nil s : ahist s [] s
| ah_cons s o ops s' : careful s o -> ahist (astep s o) ops s' -> ahist s (o :: ops) s'.

Definition a_init : ast := mkA (fun _ => []) 0 [].

(** ** proofs *)
Record AInv (s : ast) : Prop := mkAI {
  ai_in : forall d w m, nth_error (a_dofs s) d = Some (w, m) -> inside s w /\ length m = v_len w;
  ai_dj : forall d1 d2 w1 m1 w2 m2, d1 <> d2 -> nth_error (a_dofs s) d1 = Some (w1, m1) ->
    nth_error (a_dofs s) d2 = Some (w2, m2) -> disjoint w1 w2 }.

Lemma rd_len H w : v_off w + v_len w <= length (H (v_addr w)) -> length (rd H w) = v_len w.
Proof. intros. unfold rd. rewrite firstn_length, skipn_length. lia. Qed.
Lemma wr_len H w l a : v_off w + v_len w <= length (H (v_addr w)) -> length l = v_len w -> length (wr H w l a) = length (H a).
Proof.
  intros Hb Hl. unfold wr. destruct (Nat.eqb_spec a (v_addr w)) as [->|]; auto.
  rewrite !app_length, firstn_length, skipn_length. lia.
Qed.
Lemma rd_wr_same H w l : v_off w + v_len w <= length (H (v_addr w)) -> length l = v_len w -> rd (wr H w l) w = l.
Proof.
  intros Hb Hl. unfold rd, wr. rewrite Nat.eqb_refl.
  rewrite skipn_app, firstn_length, Nat.min_l by lia. rewrite skipn_all2 by (rewrite firstn_length; lia).
  rewrite Nat.sub_diag. cbn [app skipn]. rewrite <- Hl, firstn_app, firstn_all, Nat.sub_diag. cbn. apply app_nil_r.
Qed.
Lemma nth_rd H w i : i < v_len w -> nth_error (rd H w) i = nth_error (H (v_addr w)) (v_off w + i).
Proof.
  intros Hi. unfold rd. revert Hi. generalize (H (v_addr w)) as l. generalize (v_off w) as o. generalize (v_len w) as n. revert i.
  intros i n o l Hi. replace (nth_error l (o + i)) with (nth_error (skipn o l) i).
  - generalize (skipn o l) as r. clear o l. revert n Hi. induction i; intros [|n] Hi [|x r]; cbn; try lia; auto. apply IHi. lia.
  - clear. revert o. induction l as [|x l IH]; intros [|o]; cbn; auto. now destruct i.
Qed.
Lemma nth_wr_out H w l a i : v_off w + v_len w <= length (H (v_addr w)) -> length l = v_len w ->
  a <> v_addr w \/ i < v_off w \/ v_off w + v_len w <= i -> nth_error (wr H w l a) i = nth_error (H a) i.
Proof.
  intros Hb Hl Hi. unfold wr. destruct (Nat.eqb_spec a (v_addr w)) as [->|]; auto.
  destruct Hi as [Hi|[Hi|Hi]]; [congruence| |].
  - transitivity (nth_error (firstn (v_off w) (H (v_addr w)) ++ skipn (v_off w) (H (v_addr w))) i).
    + now rewrite !nth_error_app1 by (rewrite firstn_length; lia).
    + now rewrite firstn_skipn.
  - transitivity (nth_error (firstn (v_off w + v_len w) (H (v_addr w)) ++ skipn (v_off w + v_len w) (H (v_addr w))) i).
    + rewrite nth_error_app2; rewrite firstn_length; [|lia]. rewrite nth_error_app2; [|lia].
      rewrite nth_error_app2; rewrite firstn_length; [|lia]. f_equal. lia.
    + now rewrite firstn_skipn.
Qed.
Lemma rd_wr_disjoint H w l w' : v_off w + v_len w <= length (H (v_addr w)) -> length l = v_len w -> disjoint w w' ->
  v_off w' + v_len w' <= length (H (v_addr w')) -> rd (wr H w l) w' = rd H w'.
Proof.
  intros Hb Hl Hd Hb'. apply nth_error_ext. intros i.
  destruct (Nat.lt_ge_cases i (v_len w')) as [Hi|Hi].
  - rewrite !nth_rd by auto. apply nth_wr_out; auto. destruct Hd as [Hd|[Hd|Hd]]; [left; congruence|right; right; lia|right; left; lia].
  - assert (X : length (rd (wr H w l) w') <= i) by (rewrite rd_len; [auto|rewrite wr_len; auto]).
    assert (Y : length (rd H w') <= i) by (rewrite rd_len; auto). apply nth_error_None in X, Y. congruence.
Qed.

Lemma inside_wr s w l w' ds : inside s w -> length l = v_len w -> inside s w' ->
  inside (mkA (wr (a_heap s) w l) (a_next s) ds) w'.
Proof. intros [H1 H2] Hl [H3 H4]. split; cbn; auto. rewrite wr_len; auto. Qed.

Lemma inplace_inv s w l : AInv s -> inside s w -> length l = v_len w -> AInv (mkA (wr (a_heap s) w l) (a_next s) (a_dofs s)).
Proof.
  intros I Hw Hl. constructor; cbn.
  - intros d w' m E. destruct (ai_in s I d w' m E). split; auto. now apply inside_wr.
  - intros *. apply (ai_dj s I).
Qed.

Lemma astep_inv s o : AInv s -> careful s o -> AInv (astep s o).
Proof.
  intros I C. destruct o as [l|w m|d w|d l|d i v|w i v]; cbn.
  - constructor; cbn; [|intros *; apply (ai_dj s I)]. intros d w m E. destruct (ai_in s I d w m E) as [[H1 H2] H3].
    split; auto. split; cbn; [lia|]. destruct (Nat.eqb_spec (v_addr w) (a_next s)); [lia|auto].
  - destruct (Nat.eqb_spec (v_len w) (length m)) as [E|]; auto. destruct C as [C1 C2]. constructor; cbn.
    + intros d w' m' Hd. destruct (Nat.lt_ge_cases d (length (a_dofs s))) as [Hl|Hl].
      * rewrite nth_error_app1 in Hd by auto. exact (ai_in s I d w' m' Hd).
      * rewrite nth_error_app2 in Hd by auto. destruct (d - length (a_dofs s)) as [|n]; [|destruct n; discriminate].
        cbn in Hd. injection Hd as <- <-. auto.
    + intros d1 d2 w1 m1 w2 m2 Hne H1 H2.
      assert (K : forall d w' m', nth_error (a_dofs s ++ [(w, m)]) d = Some (w', m') ->
         (nth_error (a_dofs s) d = Some (w', m')) \/ (d = length (a_dofs s) /\ w' = w)).
      { intros d w' m' Hd. destruct (Nat.lt_ge_cases d (length (a_dofs s))) as [Hl|Hl].
        - rewrite nth_error_app1 in Hd by auto. auto.
        - rewrite nth_error_app2 in Hd by auto. destruct (d - length (a_dofs s)) as [|n] eqn:En; [|destruct n; discriminate].
          cbn in Hd. injection Hd as <- <-. right. split; auto. lia. }
      apply K in H1, H2. destruct H1 as [H1|[E1 ->]], H2 as [H2|[E2 ->]].
      * eapply (ai_dj s I d1 d2); eauto.
      * apply C2 in H1. unfold disjoint in *. intuition.
      * apply C2 in H2. auto.
      * lia.
  - destruct (nth_error (a_dofs s) d) as [[w0 m]|] eqn:E; auto. destruct (Nat.eqb_spec (v_len w0) (v_len w)) as [El|]; auto.
    destruct C as [C1 C2]. assert (Hd : d < length (a_dofs s)) by (apply nth_error_lt; eauto). constructor; cbn.
    + intros d' w' m'. rewrite nth_error_upd. destruct (Nat.eqb_spec d d') as [<-|Hne]; cbn [andb].
      * apply Nat.ltb_lt in Hd. rewrite Hd. intros [= <- <-]. split; auto. rewrite <- El. now apply (ai_in s I d).
      * intros Hd'. exact (ai_in s I d' w' m' Hd').
    + intros d1 d2 w1 m1 w2 m2 Hne. rewrite !nth_error_upd. apply Nat.ltb_lt in Hd. rewrite Hd, !andb_true_r.
      destruct (Nat.eqb_spec d d1) as [<-|H1], (Nat.eqb_spec d d2) as [<-|H2]; try congruence; intros A B.
      * injection A as <- <-. eapply C2; eauto.
      * injection B as <- <-. apply C2 in A. unfold disjoint in *. intuition.
      * eapply (ai_dj s I d1 d2); eauto.
  - destruct (nth_error (a_dofs s) d) as [[w0 m]|] eqn:E; auto. destruct (_ =? _); auto.
    destruct (ai_in s I d w0 m E) as [Hi Hm]. apply inplace_inv; auto. rewrite length_scatter. apply rd_len. apply Hi.
  - destruct (nth_error (a_dofs s) d) as [[w0 m]|] eqn:E; auto.
    destruct (ai_in s I d w0 m E) as [Hi Hm]. apply inplace_inv; auto. rewrite length_upd. apply rd_len. apply Hi.
  - destruct C as [C1 C2]. apply inplace_inv; auto. rewrite length_upd. apply rd_len. apply C1.
Qed.

Lemma astep_count s o : length (a_dofs s) <= length (a_dofs (astep s o)).
Proof.
  destruct o; cbn; auto.
  - destruct (_ =? _); cbn; auto. rewrite app_length. lia.
  - destruct (nth_error _ _) as [[? ?]|]; auto. destruct (_ =? _); cbn; auto. now rewrite length_upd.
  - destruct (nth_error _ _) as [[? ?]|]; auto. destruct (_ =? _); cbn; auto.
  - destruct (nth_error _ _) as [[? ?]|]; auto.
Qed.

Lemma astep_other s o d : AInv s -> careful s o -> d < length (a_dofs s) -> ~ on o d -> xs (astep s o) d = xs s d.
Proof.
  intros I C Hd Hon. apply nth_error_lt in Hd. destruct Hd as [[w m] E]. assert (Hd := E).
  destruct (ai_in s I d w m E) as [[Hi1 Hi2] Hm].
  assert (W : forall w0 l, inside s w0 -> length l = v_len w0 -> disjoint w0 w ->
     xs (mkA (wr (a_heap s) w0 l) (a_next s) (a_dofs s)) d = xs s d).
  { intros w0 l [A B] Hl Hdj. unfold xs. cbn. rewrite E. now apply rd_wr_disjoint. }
  destruct o as [l|w' m'|d' w'|d' l|d' i v|w' i v]; cbn [astep on careful] in *.
  - unfold xs. cbn. rewrite E. unfold rd. destruct (Nat.eqb_spec (v_addr w) (a_next s)); [lia|auto].
  - destruct (_ =? _); auto. unfold xs. cbn. rewrite nth_error_app1, E; auto. apply nth_error_lt. eauto.
  - destruct (nth_error (a_dofs s) d') as [[w0 m0]|]; auto. destruct (_ =? _); auto. unfold xs. cbn.
    rewrite nth_error_upd_other by auto. now rewrite E.
  - destruct (nth_error (a_dofs s) d') as [[w0 m0]|] eqn:E'; auto. destruct (_ =? _); auto.
    destruct (ai_in s I d' w0 m0 E'). apply W; auto.
    + rewrite length_scatter. apply rd_len. apply H.
    + eapply (ai_dj s I d' d); eauto.
  - destruct (nth_error (a_dofs s) d') as [[w0 m0]|] eqn:E'; auto.
    destruct (ai_in s I d' w0 m0 E'). apply W; auto.
    + rewrite length_upd. apply rd_len. apply H.
    + eapply (ai_dj s I d' d); eauto.
  - destruct C as [C1 C2]. apply W; auto. + rewrite length_upd. apply rd_len. apply C1. + eapply C2; eauto.
Qed.

Lemma astep_target s o d w m : AInv s -> careful s o -> nth_error (a_dofs s) d = Some (w, m) ->
  match o with
  | AFull d' w' => d' = d -> length (xs s d) = v_len w' -> xs (astep s o) d = rd (a_heap s) w'
  | AFree d' l => d' = d -> length l = count_true m -> xs (astep s o) d = scatter m (xs s d) l
  | ASet d' i v => d' = d -> xs (astep s o) d = upd i v (xs s d)
  | _ => True
  end.
Proof.
  intros I C E. destruct (ai_in s I d w m E) as [[Hi1 Hi2] Hm].
  assert (Hx : xs s d = rd (a_heap s) w) by (unfold xs; now rewrite E).
  destruct o; auto; intros ->; cbn; rewrite E; cbn; intros.
  - rewrite Hx, rd_len in H by auto. rewrite H, Nat.eqb_refl. unfold xs. cbn. rewrite nth_error_upd_same; auto.
    apply nth_error_lt; eauto.
  - rewrite length_gather by auto. rewrite H, Nat.eqb_refl. unfold xs. cbn. rewrite E.
    rewrite rd_wr_same; auto. rewrite length_scatter. now apply rd_len.
  - unfold xs. cbn. rewrite E. rewrite rd_wr_same; auto. rewrite length_upd. now apply rd_len.
Qed.

Lemma a_init_inv : AInv a_init.
Proof. constructor; cbn; intros [|d]; intros; discriminate. Qed.

Lemma ahist_inv s ops s' : ahist s ops s' -> AInv s -> AInv s'.
Proof. induction 1; auto. intros. apply IHahist. now apply astep_inv. Qed.

Lemma ahist_other s ops s' d : ahist s ops s' -> AInv s -> d < length (a_dofs s) -> (forall o, In o ops -> ~ on o d) -> xs s' d = xs s d.
Proof.
  induction 1 as [|s o ops s' C H IH]; intros I Hd Ho; auto. rewrite IH.
  - apply astep_other; auto. apply Ho. now left.
  - now apply astep_inv.
  - assert (X := astep_count s o). lia.
  - intros; apply Ho; now right.
Qed.
End A.

(** C08 *)
Theorem C08_independent_when_arrays_are_fresh : forall (V : Type) (s : @ast V) ops0 ops s' d,
  ahist a_init ops0 s -> ahist s ops s' -> d < length (a_dofs s) -> (forall o, In o ops -> ~ on o d) -> xs s' d = xs s d.
Proof. intros V s ops0 ops s' d H0 H Hd Ho. eapply ahist_other; eauto. eapply ahist_inv; eauto. apply a_init_inv. Qed.

Theorem C08_target_gets_the_values : forall (V : Type) (s : @ast V) ops0 o d w m,
  ahist a_init ops0 s -> careful s o -> nth_error (a_dofs s) d = Some (w, m) ->
  match o with
  | AFull d' w' => d' = d -> length (xs s d) = v_len w' -> xs (astep s o) d = rd (a_heap s) w'
  | AFree d' l => d' = d -> length l = count_true m -> xs (astep s o) d = scatter m (xs s d) l
  | ASet d' i v => d' = d -> xs (astep s o) d = upd i v (xs s d)
  | _ => True
  end.
Proof. intros V s ops0 o d w m H0. apply astep_target. eapply ahist_inv; eauto. apply a_init_inv. Qed.

(** two slices of one array, as assigned by the graph's full_x setter *)
Example C08_nonvacuous : exists s s', 
  ahist a_init [AAlloc [1; 2; 3]%Z; ANew (mkV 0 0 3) [true; true; true]; AAlloc [4; 5]%Z; ANew (mkV 1 0 2) [true; false];
                AAlloc [10; 20; 30; 40; 50]%Z; AFull 0 (mkV 2 0 3); AFull 1 (mkV 2 3 2)] s /\
  xs s 0 = [10; 20; 30]%Z /\ xs s 1 = [40; 50]%Z /\
  ahist s [AFree 0 [7; 8; 9]%Z; ASet 0 0 99%Z] s' /\ xs s' 1 = xs s 1 /\ xs s' 0 = [99; 8; 9]%Z.
Proof.
  do 2 eexists. split.
  { repeat (apply ah_cons; [cbn; auto|]); try apply ah_nil.
    all: split; [split; cbn; lia|].
    all: cbn; intros [|[|[|d]]] w' m H; cbn in H; try discriminate; injection H as <- <-; unfold disjoint; cbn; lia. }
  split; [reflexivity|]. split; [reflexivity|]. split; [|split].
  - repeat (apply ah_cons; [exact Logic.I|]). apply ah_nil.
  - reflexivity.
  - reflexivity.
Qed.

(** b.full_x = a.full_x stores a's own array in b: afterwards a.set changes b *)
Theorem C08_shared_array_refuted : exists (ops : list (@aop Z)) s,
  ops = [AAlloc [1; 2]%Z; ANew (mkV 0 0 2) [true; true]; AAlloc [3; 4]%Z; ANew (mkV 1 0 2) [true; true]; AFull 1 (mkV 0 0 2)] /\
  fold_left astep ops a_init = s /\ xs s 1 = [1; 2]%Z /\
  ~ on (ASet 0 0 99%Z) 1 /\ xs (astep s (ASet 0 0 99%Z)) 1 = [99; 2]%Z.
Proof.
  do 2 eexists. split; [reflexivity|]. split; [reflexivity|]. split; [reflexivity|]. split; [cbn; lia|reflexivity].
Qed.
(** so does building two DOFs from one initial array, and writing through the array returned by full_x *)
Theorem C08_constructor_and_getter_refuted : exists s : @ast Z,
  fold_left astep [AAlloc [1; 2]%Z; ANew (mkV 0 0 2) [true; true]; ANew (mkV 0 0 2) [true; true]] a_init = s /\
  xs (astep s (AFree 0 [8; 9]%Z)) 1 = [8; 9]%Z /\
  xs (astep s (AUser (mkV 0 0 2) 1 7%Z)) 0 = [1; 7]%Z.
Proof. eexists. split; [reflexivity|]. split; reflexivity. Qed.

Print Assumptions C08_independent_when_arrays_are_fresh.
Print Assumptions C08_target_gets_the_values.
Print Assumptions C08_shared_array_refuted.
