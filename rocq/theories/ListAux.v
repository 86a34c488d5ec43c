(** Generic list helpers shared by the models (no simsopt content). *)
From Coq Require Export List Arith ZArith Lia Bool Permutation.
From Coq Require Export ZifyBool ZifyNat.
Export ListNotations.
#[global] Arguments Nat.ltb : simpl never.
#[global] Arguments Nat.sub : simpl nomatch.

(** [upd n v l]: replace entry [n] (no effect when out of range). *)
Fixpoint upd {A} (n : nat) (v : A) (l : list A) : list A :=
  match l, n with
  | [], _ => []
  | _ :: r, 0 => v :: r
  | a :: r, S k => a :: upd k v r
  end.

(** [gather m l]: numpy boolean-mask read [l[m]]. *)
Fixpoint gather {A} (m : list bool) (l : list A) : list A :=
  match m, l with
  | b :: ms, a :: r => if b then a :: gather ms r else gather ms r
  | _, _ => []
  end.

(** [scatter m l v]: numpy boolean-mask write [l[m] = v] (for [length v] equal to the number of
    [true]s in [m]; the caller has checked the length). *)
Fixpoint scatter {A} (m : list bool) (l v : list A) : list A :=
  match m, l with
  | true :: ms, a :: r => match v with
                          | [] => a :: scatter ms r []
                          | x :: xs => x :: scatter ms r xs
                          end
  | false :: ms, a :: r => a :: scatter ms r v
  | _, _ => l
  end.

(** [slice a b l] = python [l[a:b]] for [0 <= a <= b]. *)
Definition slice {A} (a b : nat) (l : list A) : list A := firstn (b - a) (skipn a l).

(** python [list.index]: position of the first element satisfying [f]. *)
Fixpoint find_index {A} (f : A -> bool) (l : list A) : option nat :=
  match l with
  | [] => None
  | a :: r => if f a then Some 0 else option_map S (find_index f r)
  end.

Lemma length_upd {A} n (v : A) l : length (upd n v l) = length l.
Proof. revert n; induction l as [|a l IH]; intros [|n]; cbn; auto. Qed.

Lemma nth_error_upd_same {A} n (v : A) l : n < length l -> nth_error (upd n v l) n = Some v.
Proof. revert n; induction l as [|a l IH]; intros [|n] H; cbn in *; try lia; auto. apply IH; lia. Qed.

Lemma nth_error_upd_other {A} n m (v : A) l : n <> m -> nth_error (upd n v l) m = nth_error l m.
Proof. revert n m; induction l as [|a l IH]; intros [|n] [|m] H; cbn in *; try lia; auto. Qed.

Lemma upd_same_value {A} n (v : A) l : nth_error l n = Some v -> upd n v l = l.
Proof. revert n; induction l as [|a l IH]; intros [|n] H; cbn in *; try congruence. f_equal; auto. Qed.

Lemma upd_out {A} n (v : A) l : length l <= n -> upd n v l = l.
Proof. revert n; induction l as [|a l IH]; intros [|n] H; cbn in *; try lia; auto. rewrite IH; auto; lia. Qed.

Lemma nth_error_upd {A} n m (v : A) l :
  nth_error (upd n v l) m = if (n =? m) && (n <? length l) then Some v else nth_error l m.
Proof.
  destruct (Nat.eqb_spec n m) as [->|Hn]; cbn [andb].
  - destruct (Nat.ltb_spec m (length l)) as [Hl|Hl].
    + now apply nth_error_upd_same.
    + now rewrite upd_out.
  - now apply nth_error_upd_other.
Qed.

Definition count_true (m : list bool) : nat := length (filter (fun b => b) m).

Lemma length_gather {A} m (l : list A) : length l = length m -> length (gather m l) = count_true m.
Proof.
  unfold count_true. revert l; induction m as [|[] m IH]; intros [|a l] H; cbn in *; try lia; auto.
Qed.

Lemma length_scatter {A} m (l v : list A) : length (scatter m l v) = length l.
Proof.
  revert l v; induction m as [|[] m IH]; intros [|a l] v; cbn; auto.
  destruct v as [|b v]; cbn; auto.
Qed.

Lemma gather_scatter {A} m (l v : list A) :
  length l = length m -> length v = count_true m -> gather m (scatter m l v) = v.
Proof.
  unfold count_true. revert l v; induction m as [|[] m IH]; intros [|a l] v Hl Hv; cbn in *; try lia.
  - now destruct v.
  - destruct v as [|b v]; cbn in *; [lia|]. f_equal. apply IH; lia.
  - apply IH; lia.
Qed.

Lemma nth_scatter_fixed {A} m (l v : list A) i :
  nth_error m i = Some false -> nth_error (scatter m l v) i = nth_error l i.
Proof.
  revert l v i; induction m as [|[] m IH]; intros [|a l] v [|i] H; cbn in *; try congruence; auto.
  destruct v as [|b v]; cbn; auto.
Qed.

Lemma scatter_gather {A} m (l : list A) : scatter m l (gather m l) = l.
Proof. revert l; induction m as [|[] m IH]; intros [|a l]; cbn; auto; now rewrite IH. Qed.

(** positions of the [true] entries. *)
Fixpoint true_positions_from (k : nat) (m : list bool) : list nat :=
  match m with
  | [] => []
  | true :: r => k :: true_positions_from (S k) r
  | false :: r => true_positions_from (S k) r
  end.

Lemma find_index_Some {A} (f : A -> bool) l n :
  find_index f l = Some n <->
  (exists a, nth_error l n = Some a /\ f a = true /\ forall j b, j < n -> nth_error l j = Some b -> f b = false).
Proof.
  revert n; induction l as [|a l IH]; intros n; cbn.
  - split; [discriminate|]. intros (b & Hb & _). destruct n; discriminate.
  - destruct (f a) eqn:Fa.
    + split.
      * injection 1 as <-. exists a. repeat split; auto. intros; lia.
      * intros (b & Hb & Fb & Hmin). destruct n as [|n]; auto.
        specialize (Hmin 0 a ltac:(lia) eq_refl). congruence.
    + destruct (find_index f l) as [k|] eqn:Fk; cbn.
      * split.
        -- injection 1 as <-. destruct (proj1 (IH k) eq_refl) as (b & Hb & Fb & Hmin).
           exists b; repeat split; auto. intros [|j] c Hj Hc; cbn in Hc; [congruence|].
           apply Hmin with j; auto; lia.
        -- intros (b & Hb & Fb & Hmin). destruct n as [|n]; cbn in Hb; [congruence|].
           f_equal. enough (Some k = Some n) by congruence.
           apply IH. exists b; repeat split; auto. intros j c Hj Hc.
           apply Hmin with (S j); auto; lia.
      * split; [discriminate|]. intros (b & Hb & Fb & Hmin). destruct n as [|n]; cbn in Hb; [congruence|].
        enough (None = Some n) by congruence. apply IH. exists b; repeat split; auto.
        intros j c Hj Hc. apply Hmin with (S j); auto; lia.
Qed.

Lemma find_index_None {A} (f : A -> bool) l : find_index f l = None <-> forall a, In a l -> f a = false.
Proof.
  induction l as [|a l IH]; cbn.
  - split; auto. intros _ b [].
  - destruct (f a) eqn:Fa.
    + split; [discriminate|]. intros H. specialize (H a (or_introl eq_refl)). congruence.
    + destruct (find_index f l) as [k|]; cbn.
      * split; [discriminate|]. intros H. assert (Some k = None) as K; [|discriminate].
        apply IH. intros; apply H; auto.
      * split; auto. intros _ b [<-|Hb]; auto. now apply IH.
Qed.

Lemma slice_length {A} a b (l : list A) : a <= b -> b <= length l -> length (slice a b l) = b - a.
Proof. intros; unfold slice. rewrite firstn_length, skipn_length. lia. Qed.

Lemma nth_error_ext {A} (l1 l2 : list A) : (forall i, nth_error l1 i = nth_error l2 i) -> l1 = l2.
Proof.
  revert l2; induction l1 as [|a l1 IH]; intros [|b l2] H; auto.
  - specialize (H 0); discriminate.
  - specialize (H 0); discriminate.
  - assert (H0 := H 0); cbn in H0. injection H0 as ->. f_equal. apply IH. intros i. apply (H (S i)).
Qed.

Lemma nth_error_lt {A} (l : list A) i : i < length l <-> exists a, nth_error l i = Some a.
Proof.
  split.
  - intros H. destruct (nth_error l i) eqn:E; eauto. apply nth_error_None in E. lia.
  - intros (a & H). apply nth_error_Some. congruence.
Qed.
