(** Exact effect of every operation on arrays that may be shared between DOFs objects (C08). *)
From Verif Require Import ListAux DofsModel AliasModel.

(** ---------------------------------------------------------------- C08 *)
Section A.
Context {V : Type}.
Implicit Types (s : @ast V).
(** histories in which arrays are handed around freely; the views only have to exist *)
Definition exists_view s (o : @aop V) : Prop :=
  match o with ANew w _ | AFull _ w | AUser w _ _ => inside s w | _ => True end.
Inductive whist : @ast V -> list aop -> @ast V -> Prop :=
| wh_nil s : whist s [] s
| wh_cons s o ops s' : exists_view s o -> whist (astep s o) ops s' -> whist s (o :: ops) s'.

Definition Inside s := forall d w m, nth_error (a_dofs s) d = Some (w, m) -> inside s w /\ length m = v_len w.

Lemma inplace_Inside s w l : Inside s -> inside s w -> length l = v_len w -> Inside (mkA (wr (a_heap s) w l) (a_next s) (a_dofs s)).
Proof.
  intros I Hw Hl d w' m E. destruct (I d w' m E). split; auto. now apply inside_wr.
Qed.
Lemma astep_Inside s o : Inside s -> exists_view s o -> Inside (astep s o).
Proof.
  intros I C. destruct o as [l|w m|d w|d l|d i v|w i v]; cbn.
  - intros d w m E. destruct (I d w m E) as [[H1 H2] H3].
    split; auto. split; cbn; [lia|]. destruct (Nat.eqb_spec (v_addr w) (a_next s)); [lia|auto].
  - destruct (Nat.eqb_spec (v_len w) (length m)) as [E|]; auto.
    intros d w' m' Hd. cbn in Hd. destruct (Nat.lt_ge_cases d (length (a_dofs s))) as [Hl|Hl].
    + rewrite nth_error_app1 in Hd by auto. exact (I d w' m' Hd).
    + rewrite nth_error_app2 in Hd by auto. destruct (d - length (a_dofs s)) as [|n]; [|destruct n; discriminate].
      cbn in Hd. injection Hd as <- <-. auto.
  - destruct (nth_error (a_dofs s) d) as [[w0 m]|] eqn:E; auto. destruct (Nat.eqb_spec (v_len w0) (v_len w)) as [El|]; auto.
    assert (Hd : d < length (a_dofs s)) by (apply nth_error_lt; eauto).
    intros d' w' m'. cbn. rewrite nth_error_upd. destruct (Nat.eqb_spec d d') as [<-|Hne]; cbn [andb].
    + apply Nat.ltb_lt in Hd. rewrite Hd. intros [= <- <-]. split; auto. rewrite <- El. now apply (I d).
    + intros Hd'. exact (I d' w' m' Hd').
  - destruct (nth_error (a_dofs s) d) as [[w0 m]|] eqn:E; auto. destruct (_ =? _); auto.
    destruct (I d w0 m E) as [Hi Hm]. apply inplace_Inside; auto. rewrite length_scatter. apply rd_len. apply Hi.
  - destruct (nth_error (a_dofs s) d) as [[w0 m]|] eqn:E; auto.
    destruct (I d w0 m E) as [Hi Hm]. apply inplace_Inside; auto. rewrite length_upd. apply rd_len. apply Hi.
  - apply inplace_Inside; auto. rewrite length_upd. apply rd_len. apply C.
Qed.
Lemma whist_Inside s ops s' : whist s ops s' -> Inside s -> Inside s'.
Proof. induction 1; auto. intros. apply IHwhist. now apply astep_Inside. Qed.

(** two entries of two arrays are the same place in memory *)
Definition same_place (w1 : vw) (i1 : nat) (w2 : vw) (i2 : nat) : Prop := v_addr w1 = v_addr w2 /\ v_off w1 + i1 = v_off w2 + i2.

Lemma nth_wr_in (H : @heap V) w (l : list V) i : v_off w + v_len w <= length (H (v_addr w)) -> length l = v_len w -> i < v_len w ->
  nth_error (wr H w l (v_addr w)) (v_off w + i) = nth_error l i.
Proof.
  intros Hb Hl Hi. assert (E := rd_wr_same H w l Hb Hl). rewrite <- E at 2. now rewrite nth_rd.
Qed.
(** an in-place write through one view, seen through another one *)
Lemma rd_wr_exact (H : @heap V) w (l : list V) w' i : v_off w + v_len w <= length (H (v_addr w)) -> length l = v_len w -> i < v_len w' ->
  (forall k, k < v_len w -> same_place w' i w k -> nth_error (rd (wr H w l) w') i = nth_error l k) /\
  ((forall k, k < v_len w -> ~ same_place w' i w k) -> nth_error (rd (wr H w l) w') i = nth_error (rd H w') i).
Proof.
  intros Hb Hl Hi. split.
  - intros k Hk [E1 E2]. rewrite nth_rd, E1, E2 by auto. now apply nth_wr_in.
  - intros N. rewrite !nth_rd by auto. apply nth_wr_out; auto.
    destruct (Nat.eq_dec (v_addr w') (v_addr w)) as [E|]; [|auto]. right.
    destruct (Nat.lt_ge_cases (v_off w' + i) (v_off w)); [auto|]. destruct (Nat.le_gt_cases (v_off w + v_len w) (v_off w' + i)); [auto|].
    exfalso. apply (N (v_off w' + i - v_off w)); [lia|]. split; [auto|lia].
Qed.

(** what every operation does to entry i of the values of object d *)
Definition effect s (o : @aop V) (d i : nat) (w : vw) : Prop :=
  let new := nth_error (xs (astep s o) d) i in let old := nth_error (xs s d) i in
  match o with
  | AAlloc _ | ANew _ _ => new = old
  | AFull d' w' => (d' <> d \/ v_len w' <> v_len w -> new = old) /\
                   (d' = d -> v_len w' = v_len w -> new = nth_error (rd (a_heap s) w') i)
  | ASet d' k v => forall w' m', nth_error (a_dofs s) d' = Some (w', m') -> k < v_len w' ->
      (same_place w i w' k -> new = Some v) /\ (~ same_place w i w' k -> new = old)
  | AUser w' k v => k < v_len w' -> (same_place w i w' k -> new = Some v) /\ (~ same_place w i w' k -> new = old)
  | AFree d' l => forall w' m', nth_error (a_dofs s) d' = Some (w', m') -> length l = count_true m' ->
      (forall k, k < v_len w' -> same_place w i w' k -> new = nth_error (scatter m' (xs s d') l) k) /\
      ((forall k, k < v_len w' -> ~ same_place w i w' k) -> new = old)
  end.

Lemma put_place (H : @heap V) w k v w' i : v_off w + v_len w <= length (H (v_addr w)) -> k < v_len w -> i < v_len w' ->
  (same_place w' i w k -> nth_error (rd (wr H w (upd k v (rd H w))) w') i = Some v) /\
  (~ same_place w' i w k -> nth_error (rd (wr H w (upd k v (rd H w))) w') i = nth_error (rd H w') i).
Proof.
  intros Hb Hk Hi. assert (Ll : length (upd k v (rd H w)) = v_len w) by (rewrite length_upd; now apply rd_len).
  destruct (rd_wr_exact H w _ w' i Hb Ll Hi) as [E1 E2]. split.
  - intros Sp. rewrite (E1 k Hk Sp). apply nth_error_upd_same. rewrite rd_len; auto.
  - intros N. destruct (Nat.eq_dec (v_addr w') (v_addr w)) as [Ea|Ea].
    + destruct (Nat.le_gt_cases (v_off w) (v_off w' + i)) as [H1|H1].
      * destruct (Nat.lt_ge_cases (v_off w' + i - v_off w) (v_len w)) as [H2|H2].
        -- assert (Sp : same_place w' i w (v_off w' + i - v_off w)) by (split; [auto|lia]).
           rewrite (E1 _ H2 Sp). rewrite nth_error_upd_other.
           ++ rewrite !nth_rd by auto. destruct Sp as [S1 S2]. rewrite S1. f_equal. lia.
           ++ intros E. apply N. rewrite E. exact Sp.
        -- apply E2. intros k' Hk' [_ S2]. lia.
      * apply E2. intros k' Hk' [_ S2]. lia.
    + apply E2. intros k' Hk' [S1 _]. auto.
Qed.
End A.

(** After any history, entry i of object d is changed by a write exactly when the write goes to the same place in
    memory, i.e. when the two objects were given views of one array; re-assigning the whole vector re-binds it. *)
Theorem C08_exact_effect : forall (V : Type) ops (s : @ast V) o d w m i,
  whist a_init ops s -> exists_view s o -> nth_error (a_dofs s) d = Some (w, m) -> i < v_len w ->
  effect s o d i w.
Proof.
  intros V ops s o d w m i Hh C E Hi. assert (I : Inside s).
  { eapply whist_Inside; eauto. intros [|d'] w' m' X; discriminate. }
  destruct (I d w m E) as [[Hi1 Hi2] Hm].
  assert (X0 : xs s d = rd (a_heap s) w) by (unfold xs; now rewrite E).
  unfold effect. destruct o as [l|w' m'|d' w'|d' l|d' k v|w' k v]; cbn [astep exists_view] in *.
  - unfold xs. cbn. rewrite E. unfold rd. destruct (Nat.eqb_spec (v_addr w) (a_next s)); [lia|auto].
  - destruct (_ =? _); auto. unfold xs. cbn. rewrite nth_error_app1, E; auto. apply nth_error_lt. eauto.
  - split.
    + intros N. destruct (nth_error (a_dofs s) d') as [[w0 m0]|] eqn:E'; auto. destruct (Nat.eqb_spec (v_len w0) (v_len w')); auto.
      unfold xs. cbn. rewrite nth_error_upd_other; [auto|]. intros ->. rewrite E in E'. injection E' as <- <-. destruct N; congruence.
    + intros -> Hl. rewrite E, Hl, Nat.eqb_refl. unfold xs. cbn. rewrite nth_error_upd_same; auto. apply nth_error_lt; eauto.
  - intros w' m' E' Hl. destruct (I d' w' m' E') as [[Hj1 Hj2] Hm'].
    assert (X1 : xs s d' = rd (a_heap s) w') by (unfold xs; now rewrite E').
    rewrite X1, X0, E'. rewrite length_gather by auto. rewrite Hl, Nat.eqb_refl. unfold xs. cbn. rewrite E.
    apply rd_wr_exact; auto. rewrite length_scatter. now apply rd_len.
  - intros w' m' E' Hk. destruct (I d' w' m' E') as [[Hj1 Hj2] Hm'].
    rewrite X0, E'. unfold xs. cbn. rewrite E. now apply put_place.
  - intros Hk. rewrite X0. unfold xs. cbn. rewrite E. apply put_place; auto. apply C.
Qed.
Example C08_exact_ex : exists s : @ast Z,
  whist a_init [AAlloc [1; 2; 3]%Z; ANew (mkV 0 0 2) [true; true];
     ANew (mkV 0 1 2) [true; false]] s /\
  same_place (mkV 0 0 2) 1 (mkV 0 1 2) 0 /\
  ~ same_place (mkV 0 0 2) 0 (mkV 0 1 2) 0.
Proof.
  eexists. split; [|unfold same_place; cbn; lia].
  apply wh_cons; [exact Logic.I|]. apply wh_cons; [split; cbn; lia|]. apply wh_cons; [split; cbn; lia|]. apply wh_nil.
Qed.
Print Assumptions C08_exact_effect.

