(** C99: which files [Vmec.run] leaves behind (src/simsopt/mhd/vmec.py:663-773). *)
From Coq Require Import List ZArith Lia Bool.
Import ListNotations.
From Verif Require Import ListAux.
Open Scope nat_scope.

(** * Model *)
Inductive kind := Input | Wout.
Definition file := (kind * nat)%type.       (* <name>_<group>_<iter>: the object's own files of one group, by iteration *)
Definition file_eqb (a b : file) : bool := match fst a, fst b with Input, Input | Wout, Wout => snd a =? snd b | _, _ => false end.

Record fstate := mkF { fiter : Z; present : file -> bool; to_delete : list file }.

Definition add (f : file) (s : file -> bool) : file -> bool := fun g => file_eqb g f || s g.
Definition del (f : file) (s : file -> bool) : file -> bool := fun g => negb (file_eqb g f) && s g.

(** what happens to the object: a run of VMEC that converges; one that fails (leaving a wout file or not);
    the user assigning [files_to_delete = []] *)
Inductive event := Ok | Fail (left_wout : bool) | Clear.

Section Files.
Variable group : nat.        (* self.mpi.group *)
Variable keep : bool.        (* keep_all_files *)

(** vmec.py:676 (iter), 693-695 (the input file is written by the first process of the world, or by every group
    leader if keep_all_files), 698-708 (VMEC writes wout), 722-725 (exceptions), 735-771 (deletion by the group
    leader; the temporary files mercier, jxbout and fort.9 are not modelled) *)
Definition fstep (s : fstate) (e : event) : fstate :=
  match e with
  | Clear => mkF (fiter s) (present s) []
  | Ok | Fail _ =>
      let it := (fiter s + 1)%Z in
      let n := Z.to_nat it in
      let fs := if (group =? 0) || keep then add (Input, n) (present s) else present s in
      match e with
      | Fail lw => mkF it (if lw then add (Wout, n) fs else fs) (to_delete s)
      | _ =>
          let fs := add (Wout, n) fs in
          let fs := if negb keep && (0 <? group) then del (Wout, n) fs else fs in
          let fs := fold_left (fun fs f => del f fs) (to_delete s) fs in
          mkF it fs (if (group =? 0) && (0 <? it)%Z && negb keep then [(Input, n); (Wout, n)] else [])
      end
  end.

(** vmec.py:318-321: a new object in a directory without its files *)
Definition fnew : fstate := mkF (-1)%Z (fun _ => false) [].
Definition after (h : list event) : fstate := fold_left fstep h fnew.

(** * Specification *)
Definition is_run (e : event) : bool := match e with Clear => false | _ => true end.
Definition runs (h : list event) : nat := List.length (filter is_run h).
(** the last converged run of [h2], if any, was preceded by a Clear *)
Definition spared (h2 : list event) : Prop := forall a b, h2 = a ++ Ok :: b -> In Clear a.
(** run number [j] of the history, with what came after it *)
Definition is_jth (h : list event) (j : nat) (e : event) (h2 : list event) : Prop :=
  exists h1, h = h1 ++ e :: h2 /\ is_run e = true /\ runs h1 = j.

(** * Proofs *)
Lemma file_eqb_eq a b : file_eqb a b = true <-> a = b.
Proof. destruct a as [[|] x], b as [[|] y]; cbn; try (split; discriminate); rewrite Nat.eqb_eq; split; congruence. Qed.
Lemma file_eqb_refl a : file_eqb a a = true. Proof. now apply file_eqb_eq. Qed.
Lemma add_true f s g : add f s g = true <-> g = f \/ s g = true.
Proof. unfold add. rewrite orb_true_iff, file_eqb_eq. reflexivity. Qed.
Lemma del_true f s g : del f s g = true <-> g <> f /\ s g = true.
Proof. unfold del. rewrite andb_true_iff, negb_true_iff. destruct (file_eqb g f) eqn:E; [apply file_eqb_eq in E|]; split; intros [A B]; split; auto; try congruence. intros ->. now rewrite file_eqb_refl in E. Qed.
Lemma del_all_true l : forall s g, fold_left (fun fs f => del f fs) l s g = true <-> ~ In g l /\ s g = true.
Proof. induction l as [|a l IH]; intros s g; cbn; [tauto|]. rewrite IH, del_true. intuition congruence. Qed.

Lemma runs_app a b : runs (a ++ b) = runs a + runs b.
Proof. unfold runs. now rewrite filter_app, app_length. Qed.
Lemma after_snoc h e : after (h ++ [e]) = fstep (after h) e.
Proof. unfold after. now rewrite fold_left_app. Qed.
Lemma iter_runs h : fiter (after h) = (Z.of_nat (runs h) - 1)%Z.
Proof.
  induction h as [|e h IH] using rev_ind; [reflexivity|]. rewrite after_snoc, runs_app. unfold runs at 2. destruct e; cbn [fstep fiter filter is_run List.length]; lia.
Qed.

Lemma spared_nil : spared []. Proof. intros [|] b; discriminate. Qed.
Lemma spared_snoc h e : spared (h ++ [e]) <-> spared h /\ (e = Ok -> In Clear h).
Proof.
  split.
  - intros H. split.
    + intros a b E. apply (H a (b ++ [e])). rewrite E, <- app_assoc. reflexivity.
    + intros ->. apply (H h []). reflexivity.
  - intros [H1 H2] a b. destruct b as [|x b _] using rev_ind; intros E.
    + apply app_inj_tail in E as [-> ->]. auto.
    + rewrite app_comm_cons, app_assoc in E. apply app_inj_tail in E as [E _]. eapply H1; eauto.
Qed.
Lemma jth_snoc h e0 j e h2 : is_jth (h ++ [e0]) j e h2 <-> (h2 = [] /\ e = e0 /\ is_run e0 = true /\ runs h = j) \/ (exists g, h2 = g ++ [e0] /\ is_jth h j e g).
Proof.
  split.
  - intros (h1 & E & Rn & J). destruct h2 as [|x g _] using rev_ind.
    + apply app_inj_tail in E as [-> ->]. auto.
    + right. exists g. rewrite app_comm_cons, app_assoc in E. apply app_inj_tail in E as [-> ->]. split; auto. exists h1; auto.
  - intros [(-> & -> & Rn & J)|(g & -> & h1 & -> & Rn & J)]; [exists h; auto|]. exists h1. rewrite <- app_assoc. auto.
Qed.
Lemma jth_bound h j e h2 : is_jth h j e h2 -> j < runs h.
Proof. intros (h1 & -> & Rn & <-). rewrite runs_app. unfold runs at 3. cbn [filter]. rewrite Rn. cbn [List.length]. lia. Qed.
Lemma jth_fun h j e1 g1 e2 g2 : is_jth h j e1 g1 -> is_jth h j e2 g2 -> e1 = e2 /\ g1 = g2.
Proof.
  revert g1 g2. induction h as [|e0 h IH] using rev_ind; intros g1 g2 A B.
  - destruct A as ([|] & E & _); discriminate.
  - apply jth_snoc in A, B. destruct A as [(-> & -> & _ & J1)|(a & -> & A)]; destruct B as [(-> & -> & _ & J2)|(b & -> & B)]; auto.
    + apply jth_bound in B. lia.
    + apply jth_bound in A. lia.
    + destruct (IH _ _ A B) as [-> ->]. auto.
Qed.

(** a file of run [j] stays: the run failed (input file; wout only if VMEC left one), or it converged and is the
    first run, or nothing has deleted it since *)
Definition stays (k : kind) (j : nat) (e : event) (h2 : list event) : Prop :=
  match e with
  | Fail lw => match k with Input => True | Wout => lw = true end
  | _ => j = 0 \/ spared h2
  end.

Hypothesis G0 : group = 0.
Hypothesis NK : keep = false.

Lemma files_spec h :
  (forall k j, present (after h) (k, j) = true <-> exists e h2, is_jth h j e h2 /\ stays k j e h2) /\
  (forall f, In f (to_delete (after h)) <-> exists h2, is_jth h (snd f) Ok h2 /\ 0 < snd f /\ ~ In Clear h2 /\ ~ In Ok h2).
Proof using G0 NK.
  assert (A0 : (group =? 0) = true) by now rewrite G0. assert (A1 : (0 <? group) = false) by now rewrite G0. assert (A2 : negb keep = true) by now rewrite NK.
  induction h as [|e h [IHp IHd]] using rev_ind.
  - cbn. split; [intros k j; split; [discriminate|]|intros f; split; [tauto|]].
    + intros (e & h2 & ([|] & E & _) & _); discriminate.
    + intros (h2 & ([|] & E & _) & _); discriminate.
  - rewrite after_snoc. pose proof (iter_runs h) as It. set (n := runs h) in *.
    assert (Zn : Z.to_nat (fiter (after h) + 1) = n) by lia.
    destruct e as [|lw|]; cbn [fstep]; rewrite ?Zn, ?A0, ?A1, ?A2; cbn [orb andb].
    + (* Ok *)
      split.
      * intros k j. cbn [present]. rewrite del_all_true, IHd. cbn [snd]. rewrite !add_true, IHp. split.
        -- intros (ND & H).
           assert (C : (j = n) \/ (exists e h2, is_jth h j e h2 /\ stays k j e h2)).
           { destruct H as [[= -> ->]|[[= -> ->]|H]]; auto. }
           clear H. destruct C as [-> | (e & h2 & J & S)].
           ++ exists Ok, []. split; [apply jth_snoc; left; auto|]. right. apply spared_nil.
           ++ exists e, (h2 ++ [Ok]). split; [apply jth_snoc; right; eauto|]. unfold stays in *. destruct e as [|lw|]; auto.
              ** destruct S as [-> | S]; [now left|]. destruct (Nat.eq_dec j 0) as [->|Nj]; [now left|]. right. apply spared_snoc. split; auto. intros _.
                 destruct (in_dec (fun a b : event => ltac:(decide equality; apply bool_dec) : {a = b} + {a <> b}) Clear h2) as [I|NI]; auto.
                 exfalso. apply ND. exists h2. split; [auto|split; [lia|split; [auto|]]]. intros I. apply in_split in I as (a & b & E). apply NI. rewrite E. apply in_app_iff. left. eapply S; eauto.
              ** destruct J as (? & _ & D & _). discriminate.
        -- intros (e & h2 & J & S). apply jth_snoc in J as [(-> & -> & _ & J)|(g & -> & J)].
           ++ fold n in J. subst j. split; [intros (h2 & J & _); apply jth_bound in J; fold n in J; lia|]. destruct k; auto.
           ++ split.
              ** intros (h2 & J' & P & NC & NO). destruct (jth_fun _ _ _ _ _ _ J J') as [-> ->]. cbn in S. destruct S as [-> | S]; [lia|].
                 apply spared_snoc in S as [_ S]. apply NC. now apply S.
              ** right. right. exists e, g. split; auto. unfold stays in *. destruct e; auto; (destruct S as [S|S]; auto; apply spared_snoc in S; tauto).
      * intros [k j]. cbn [to_delete snd]. replace (0 <? fiter (after h) + 1)%Z with (0 <? n) by lia.
        split.
        -- destruct (Nat.ltb_spec 0 n); [|intros []]. intros I. assert (j = n) as -> by (destruct I as [[= _ <-]|[[= _ <-]|[]]]; auto).
           exists []. split; [apply jth_snoc; left; auto|]. auto.
        -- intros (h2 & J & P & NC & NO). apply jth_snoc in J as [(-> & _ & _ & J)|(g & -> & J)].
           ++ fold n in J. subst j. destruct (Nat.ltb_spec 0 n); [|lia]. destruct k; cbn; auto.
           ++ exfalso. apply NO, in_app_iff. cbn. auto.
    + (* Fail *)
      split.
      * intros k j. cbn [present]. split.
        -- intros H. assert (C : ((k, j) = (Input, n)) \/ (lw = true /\ (k, j) = (Wout, n)) \/ present (after h) (k, j) = true).
           { destruct lw; rewrite ?add_true in H; tauto. }
           clear H. destruct C as [[= -> ->]|[[-> [= -> ->]]|H]].
           ++ exists (Fail lw), []. split; [apply jth_snoc; left; auto|]. exact I.
           ++ exists (Fail true), []. split; [apply jth_snoc; left; auto|]. reflexivity.
           ++ apply IHp in H as (e & h2 & J & S). exists e, (h2 ++ [Fail lw]). split; [apply jth_snoc; right; eauto|].
              unfold stays in *. destruct e; auto; (destruct S as [S|S]; [now left|right; apply spared_snoc; split; [auto|discriminate]]).
        -- intros (e & h2 & J & S). apply jth_snoc in J as [(-> & -> & _ & J)|(g & -> & J)].
           ++ fold n in J. subst j. destruct k; cbn in S; [|subst lw]; [destruct lw|]; rewrite ?add_true; auto.
           ++ assert (present (after h) (k, j) = true).
              { apply IHp. exists e, g. split; auto. unfold stays in *. destruct e; auto; (destruct S as [S|S]; [now left|right; apply spared_snoc in S; tauto]). }
              destruct lw; rewrite ?add_true; auto.
      * intros f. cbn [to_delete]. rewrite IHd. split.
        -- intros (h2 & J & P & NC & NO). exists (h2 ++ [Fail lw]). split; [apply jth_snoc; right; eauto|]. rewrite !in_app_iff. cbn. intuition discriminate.
        -- intros (h2 & J & P & NC & NO). apply jth_snoc in J as [(_ & D & _)|(g & -> & J)]; [discriminate|]. exists g. rewrite !in_app_iff in *. tauto.
    + (* Clear *)
      split.
      * intros k j. cbn [present]. rewrite IHp. split.
        -- intros (e & h2 & J & S). exists e, (h2 ++ [Clear]). split; [apply jth_snoc; right; eauto|].
           unfold stays in *. destruct e; auto; (destruct S as [S|S]; [now left|right; apply spared_snoc; split; [auto|discriminate]]).
        -- intros (e & h2 & J & S). apply jth_snoc in J as [(_ & _ & D & _)|(g & -> & J)]; [discriminate|]. exists e, g. split; auto.
           unfold stays in *. destruct e; auto; (destruct S as [S|S]; [now left|right; apply spared_snoc in S; tauto]).
      * intros f. cbn [to_delete]. split; [intros []|]. intros (h2 & J & P & NC & NO). apply jth_snoc in J as [(_ & D & _)|(g & -> & J)]; [discriminate|].
        apply NC, in_app_iff. cbn. auto.
Qed.
End Files.

(** * C99 *)
(** The files of worker group 0 after any history: those of run [j] are there exactly when run [j] happened and
    either failed (its input file; its wout file if VMEC wrote one), or converged and is run 0, or converged and was not
    followed by a converged run (unless files_to_delete was emptied before that run) *)
Theorem C99_files_of_group_0 : forall h k j,
  present (after 0 false h) (k, j) = true <-> exists e h2, is_jth h j e h2 /\ stays k j e h2.
Proof. intros h k j. apply (files_spec 0 false eq_refl eq_refl h). Qed.

(** hence, if all of the n runs converge: the first and the last *)
Theorem C99_first_and_last : forall n k j, present (after 0 false (repeat Ok n)) (k, j) = true <-> j < n /\ (j = 0 \/ S j = n).
Proof.
  intros n k j. rewrite C99_files_of_group_0. split.
  - intros (e & h2 & (h1 & E & Rn & J) & S).
    assert (L : n = List.length h1 + Datatypes.S (List.length h2)) by (rewrite <- (repeat_length Ok n), E, app_length; reflexivity).
    assert (A : forall x, In x (h1 ++ e :: h2) -> x = Ok) by (intros x; rewrite <- E; apply repeat_spec).
    assert (J' : j = List.length h1).
    { rewrite <- J. unfold runs. clear - A. induction h1 as [|a h1 IH]; [reflexivity|]. cbn. rewrite (A a) by (now left). cbn. f_equal. apply IH. intros x I. apply A. now right. }
    split; [lia|]. rewrite (A e) in S by (apply in_app_iff; right; now left). cbn in S. destruct S as [S|S]; [now left|right].
    destruct h2 as [|x h2]; [cbn in L; lia|]. exfalso. apply (S [] h2). rewrite (A x); [reflexivity|]. apply in_app_iff. right. right. now left.
  - intros (L & D). exists Ok, (repeat Ok (n - S j)). split.
    + exists (repeat Ok j). split; [|split; [reflexivity|]].
      * change (Ok :: repeat Ok (n - S j)) with (repeat Ok (S (n - S j))). rewrite <- repeat_app. f_equal. lia.
      * unfold runs. clear. induction j; cbn; congruence.
    + cbn. destruct D as [-> | <-]; [now left|]. right. rewrite Nat.sub_diag. apply spared_nil.
Qed.

(** the other groups leave no file behind, except the wout files of failed runs *)
Theorem C99_other_groups : forall g h k j, 0 < g ->
  present (after g false h) (k, j) = true <-> k = Wout /\ exists h2, is_jth h j (Fail true) h2.
Proof.
  intros g h k j G. induction h as [|e h IH] using rev_ind.
  - cbn. split; [discriminate|]. intros (_ & h2 & ([|] & E & _)); discriminate.
  - unfold after in *. rewrite fold_left_app. cbn [fold_left]. fold (after g false h) in *.
    assert (G0 : (g =? 0) = false) by (apply Nat.eqb_neq; lia). assert (G1 : (0 <? g) = true) by (apply Nat.ltb_lt; lia).
    pose proof (iter_runs g false h) as It.
    assert (Zn : Z.to_nat (fiter (after g false h) + 1) = runs h) by lia.
    assert (D : to_delete (after g false h) = []).
    { clear - G0. induction h as [|e h IH] using rev_ind; [reflexivity|]. rewrite after_snoc. destruct e; cbn [fstep to_delete]; rewrite ?G0; auto. }
    assert (F : k = Wout /\ (exists h2, is_jth (h ++ [e]) j (Fail true) h2) <-> (k = Wout /\ e = Fail true /\ runs h = j) \/ (k = Wout /\ exists h2, is_jth h j (Fail true) h2)).
    { split.
      - intros (-> & h2 & J). apply jth_snoc in J as [(_ & <- & _ & J)|(x & _ & J)]; eauto.
      - intros [(-> & -> & J)|(-> & h2 & J)]; split; auto; [exists []|exists (h2 ++ [e])]; apply jth_snoc; eauto. }
    rewrite F, <- IH. clear F IH. destruct e as [|[|]|]; cbn [fstep present]; rewrite ?Zn, ?G0, ?G1, ?D; cbn [orb negb andb fold_left].
    + rewrite del_true, add_true. split.
      * intros (N & [E|E]); [contradiction|auto].
      * intros [(_ & X & _)|E]; [discriminate|]. split; auto. intros [= -> ->]. 
        (* run [runs h] has not happened yet *)
        assert (B : forall k0 j0, present (after g false h) (k0, j0) = true -> j0 < runs h).
        { clear - G0 G1. induction h as [|e h IH] using rev_ind; [discriminate|]. intros k0 j0. rewrite after_snoc, runs_app. unfold runs at 2.
          pose proof (iter_runs g false h) as It. assert (Zn : Z.to_nat (fiter (after g false h) + 1) = runs h) by lia.
          destruct e as [|[|]|]; cbn [fstep present filter is_run List.length]; rewrite ?Zn, ?G0, ?G1; cbn [orb negb andb].
          - rewrite del_all_true, del_true, add_true. intros (_ & _ & [[= _ ->]|H]); [lia|apply IH in H; lia].
          - rewrite add_true. intros [[= _ ->]|H]; [lia|apply IH in H; lia].
          - intros H; apply IH in H; lia.
          - intros H; apply IH in H; lia. }
        apply B in E. lia.
    + rewrite add_true. split.
      * intros [[= -> ->]|E]; auto.
      * intros [(-> & _ & <-)|E]; auto.
    + split; auto. intros [(_ & X & _)|E]; [discriminate|auto].
    + split; auto. intros [(_ & X & _)|E]; [discriminate|auto].
Qed.

(** with keep_all_files every group keeps every file *)
Theorem C99_keep_all : forall g h k j,
  present (after g true h) (k, j) = true <-> j < runs h /\ (k = Input \/ exists e h2, is_jth h j e h2 /\ e <> Fail false).
Proof.
  intros g h k j. revert k j. induction h as [|e h IH] using rev_ind; intros k j.
  - cbn. split; [discriminate|lia].
  - pose proof (iter_runs g true h) as It. assert (Zn : Z.to_nat (fiter (after g true h) + 1) = runs h) by lia.
    assert (D : to_delete (after g true h) = []).
    { clear. induction h as [|e h IH] using rev_ind; [reflexivity|]. rewrite after_snoc. destruct e; cbn [fstep to_delete]; auto. rewrite andb_false_r. reflexivity. }
    rewrite after_snoc, runs_app. unfold runs at 2.
    assert (F : (exists e0 h2, is_jth (h ++ [e]) j e0 h2 /\ e0 <> Fail false) <-> (is_run e = true /\ runs h = j /\ e <> Fail false) \/ (exists e0 h2, is_jth h j e0 h2 /\ e0 <> Fail false)).
    { split.
      - intros (e0 & h2 & J & N). apply jth_snoc in J as [(_ & -> & R & J)|(x & _ & J)]; eauto 6.
      - intros [(R & J & N)|(e0 & h2 & J & N)]; [exists e, []|exists e0, (h2 ++ [e])]; (split; [apply jth_snoc; eauto|auto]). }
    assert (B : (exists e0 h2, is_jth h j e0 h2 /\ e0 <> Fail false) -> j < runs h) by (intros (e0 & h2 & J & _); eapply jth_bound; eauto).
    rewrite F. clear F. destruct e as [|[|]|]; cbn [fstep present filter is_run List.length]; rewrite ?Zn, ?orb_true_r, ?D; cbn [negb andb fold_left]; rewrite ?add_true, IH; clear IH.
    + split.
      * intros [[= -> ->]|[[= -> ->]|(L & H)]]; (split; [lia|]); auto; [right; left; repeat split; auto; discriminate|]. tauto.
      * intros (L & [-> | [(_ & <- & _)|H]]); [destruct (Nat.eq_dec j (runs h)) as [->|]; [auto|right; right; split; [lia|auto]]|destruct k; auto|right; right; auto].
    + split.
      * intros [[= -> ->]|[[= -> ->]|(L & H)]]; (split; [lia|]); auto; [right; left; repeat split; auto; discriminate|]. tauto.
      * intros (L & [-> | [(_ & <- & _)|H]]); [destruct (Nat.eq_dec j (runs h)) as [->|]; [auto|right; right; split; [lia|auto]]|destruct k; auto|right; right; auto].
    + split.
      * intros [[= -> ->]|(L & H)]; (split; [lia|]); auto. tauto.
      * intros (L & [-> | [(_ & _ & N)|H]]); [destruct (Nat.eq_dec j (runs h)) as [->|]; [auto|right; split; [lia|auto]]|congruence|right; auto].
    + split.
      * intros (L & H); (split; [lia|]). tauto.
      * intros (L & [-> | [(X & _)|H]]); [split; [lia|auto]|discriminate|auto].
Qed.

Example C99_nonvacuous : let h := [Ok; Ok; Fail true; Ok; Clear; Ok; Fail false] in
  map (fun j => present (after 0 false h) (Wout, j)) (seq 0 7) = [true; false; true; true; true; false; false] /\
  map (fun j => present (after 0 false h) (Input, j)) (seq 0 7) = [true; false; true; true; true; true; false] /\
  map (fun j => present (after 2 false h) (Wout, j)) (seq 0 7) = [false; false; true; false; false; false; false].
Proof. repeat split. Qed.
