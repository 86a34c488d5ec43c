(** C31. *)
From Coq Require Import List Arith Lia Bool.
From Verif Require Import MpiLoopModel.
Import ListNotations.

(** Specification: the constants process 0 sends to the leaders / to its own workers, in order. *)
Fixpoint to_leaders (s : list instr) : list nat :=
  match s with [] => [] | SendL a :: r => a :: to_leaders r | _ :: r => to_leaders r end.
Fixpoint to_workers (s : list instr) : list nat :=
  match s with [] => [] | SendW a :: r => a :: to_workers r | _ :: r => to_workers r end.
(** The tasks a worker of group [i] must run, in order. *)
Definition worker_tasks (acts : nat -> nat -> list nat) (script : list instr) (i : nat) : list nat :=
  if i =? 0 then to_workers script else flat_map (acts i) (to_leaders script).
(** Constants used for tasks differ from STOP. *)
Definition proper (acts : nat -> nat -> list nat) (script : list instr) : Prop :=
  (forall a, In (SendL a) script -> a <> STOP) /\ (forall a, In (SendW a) script -> a <> STOP) /\
  (forall i a b, In b (acts i a) -> b <> STOP).

Lemma to_leaders_app s t : to_leaders (s ++ t) = to_leaders s ++ to_leaders t.
Proof. induction s as [|[a|a|] s IH]; cbn; congruence. Qed.
Lemma to_workers_app s t : to_workers (s ++ t) = to_workers s ++ to_workers t.
Proof. induction s as [|[a|a|] s IH]; cbn; congruence. Qed.
Lemma in_to_leaders s a : In a (to_leaders s) <-> In (SendL a) s.
Proof. induction s as [|[b|b|] s IH]; cbn; rewrite ?IH; split; try tauto; try (intros [H|H]; [left; congruence|now right]); try (intros [H|H]; [discriminate|assumption]); now right. Qed.
Lemma in_to_workers s a : In a (to_workers s) <-> In (SendW a) s.
Proof. induction s as [|[b|b|] s IH]; cbn; rewrite ?IH; split; try tauto; try (intros [H|H]; [left; congruence|now right]); try (intros [H|H]; [discriminate|assumption]); now right. Qed.
Lemma only_stop_last l k a r : ~ In STOP l -> k ++ a :: r = l ++ [STOP] ->
  (a = STOP <-> r = []) /\ (a = STOP -> k = l).
Proof.
  intros Hl E. destruct r as [|b r] using rev_ind.
  - change (k ++ [a] = l ++ [STOP]) in E. apply app_inj_tail in E. destruct E as [-> ->]. tauto.
  - clear IHr. change (k ++ a :: r ++ [b]) with (k ++ (a :: r) ++ [b]) in E. rewrite app_assoc in E.
    apply app_inj_tail in E. destruct E as [E ->]. split; [|intros ->; exfalso; apply Hl; rewrite <- E; apply in_or_app; right; now left].
    split; [|intros H; destruct r; discriminate]. intros ->. exfalso. apply Hl. rewrite <- E. apply in_or_app. right. now left.
Qed.
Definition nz (a : nat) := negb (a =? STOP).
Lemma filter_nz l : ~ In STOP l -> filter nz l = l.
Proof.
  induction l as [|a l IH]; intros H; cbn [filter]; [reflexivity|]. unfold nz at 1.
  destruct (Nat.eqb_spec a STOP) as [->|]; [exfalso; apply H; now left|]. cbn. f_equal. apply IH. intros ?; apply H; now right.
Qed.

Section Proofs.
Variable ngroups : nat.
Variable nworkers : nat -> nat.
Variable acts : nat -> nat -> list nat.

Notation step := (step ngroups nworkers acts).
Notation steps := (steps ngroups nworkers acts).

Definition expand i a := if a =? STOP then [STOP] else acts i a.
Definition lfuture c i := lqueue c i ++ to_leaders (p0 c).
Definition pending c i : list nat :=
  if i =? 0 then to_workers (p0 c)
  else match lmode_of c i with
       | LLoop => flat_map (expand i) (lfuture c i)
       | LRun t => t ++ flat_map (expand i) (lfuture c i)
       | LStop => [STOP]
       | LDone => [] end.
Definition wfuture c i w := wqueue c i w ++ pending c i.

Variable script : list instr.
Hypothesis Hprop : proper acts script.

Definition LT := to_leaders script.
Definition WT i := worker_tasks acts script i.


Record Inv (c : cfg) : Prop := {
  i_l : forall i, 1 <= i < ngroups -> llog c i ++ lfuture c i = LT ++ [STOP];
  i_w : forall i w, i < ngroups -> wlog c i w ++ wfuture c i w = WT i ++ [STOP];
  i_lm : forall i, 1 <= i < ngroups -> (In STOP (llog c i) <-> (lmode_of c i = LStop \/ lmode_of c i = LDone));
  i_wd : forall i w, i < ngroups -> (In STOP (wlog c i w) <-> wdone c i w = true);
  i_fin : forall i, 1 <= i < ngroups ->
      lfinished c i + (match lmode_of c i with LRun _ => 1 | _ => 0 end) = length (filter nz (llog c i));
  i_sent : forall i, 1 <= i < ngroups -> to_leaders (p0 c) <> [] -> sent c = length (llog c i) + length (lqueue c i);
  i_p0 : (exists r, p0 c = r ++ [SendL STOP; SendW STOP]) \/ p0 c = [SendW STOP] \/ p0 c = []
}.


Lemma LT_nz : ~ In STOP LT.
Proof using Hprop. unfold LT. rewrite in_to_leaders. intros H. now apply (proj1 Hprop) in H. Qed.
Lemma WT_nz i : ~ In STOP (WT i).
Proof using Hprop.
  unfold WT, worker_tasks. destruct (i =? 0).
  - rewrite in_to_workers. intros H. now apply (proj1 (proj2 Hprop)) in H.
  - rewrite in_flat_map. intros (a & _ & H). now apply (proj2 (proj2 Hprop)) in H.
Qed.
Lemma expand_LT i l : ~ In STOP l -> flat_map (expand i) (l ++ [STOP]) = flat_map (acts i) l ++ [STOP].
Proof using.
  intros H. rewrite flat_map_app. cbn. f_equal. induction l as [|a l IH]; cbn; [reflexivity|].
  rewrite IH by (intros ?; apply H; now right). f_equal. unfold expand.
  destruct (Nat.eqb_spec a STOP) as [->|]; [|reflexivity]. exfalso. apply H. now left.
Qed.

(** a list that ends in the only STOP *)

Lemma init_inv : Inv (init script).
Proof.
  constructor; cbn.
  - intros i _. unfold lfuture, program0. cbn. rewrite to_leaders_app. reflexivity.
  - intros i w Hi. unfold wfuture, pending. cbn. unfold WT, worker_tasks. destruct (i =? 0).
    + unfold program0. now rewrite to_workers_app.
    + unfold lfuture, program0. cbn. rewrite to_leaders_app. cbn. apply expand_LT, LT_nz.
  - intros i _. split; [tauto|]. intros [?|?]; discriminate.
  - intros i w _. split; [tauto|discriminate].
  - reflexivity.
  - reflexivity.
  - left. exists script. reflexivity.
Qed.

Lemma set1_eq {A} (f : nat -> A) i v : set1 f i v i = v.
Proof. unfold set1. now rewrite Nat.eqb_refl. Qed.
Lemma set1_neq {A} (f : nat -> A) i v j : j <> i -> set1 f i v j = f j.
Proof. intros H. unfold set1. now apply Nat.eqb_neq in H as ->. Qed.

Lemma set2_eq {A} (f : nat -> nat -> A) i w v : set2 f i w v i w = v.
Proof. unfold set2. now rewrite !Nat.eqb_refl. Qed.
Lemma set2_neq {A} (f : nat -> nat -> A) i w v j u : j <> i \/ u <> w -> set2 f i w v j u = f j u.
Proof. intros H. unfold set2. destruct (Nat.eqb_spec j i), (Nat.eqb_spec u w); cbn; try reflexivity. tauto. Qed.

Lemma app_cons_assoc {A} (l : list A) a r : l ++ a :: r = (l ++ [a]) ++ r.
Proof. now rewrite <- app_assoc. Qed.

Lemma p0_tail c x r : ((exists r, p0 c = r ++ [SendL STOP; SendW STOP]) \/ p0 c = [SendW STOP] \/ p0 c = []) ->
  p0 c = x :: r -> (exists r', r = r' ++ [SendL STOP; SendW STOP]) \/ r = [SendW STOP] \/ r = [].
Proof.
  intros [[s Hs]|[H|H]] E; rewrite E in *.
  - destruct s as [|y s]; cbn in Hs; inversion Hs; subst; [tauto|]. left. now exists s.
  - inversion H; subst. tauto.
  - discriminate.
Qed.

Lemma step_inv c c' : Inv c -> step c c' -> Inv c'.
Proof.
  intros I S. destruct I as [Il Iw Ilm Iwd Ifin Isent Ip0].
  destruct S as [a r E|a r E|r E Hj|i a q Hi Hm Hq|i a t Hi Hm|i Hi Hm|i Hi Hm|i w a q Hi Hw Hd Hq].
  - (* S_sendL *)
    pose proof (p0_tail _ _ _ Ip0 E) as Ip0'.
    assert (LF: forall i, (lqueue c i ++ [a]) ++ to_leaders r = lfuture c i).
    { intros i. unfold lfuture. rewrite E. cbn. now rewrite <- app_assoc. }
    constructor; cbn.
    + intros i Hi. unfold lfuture; cbn. rewrite LF. now apply Il.
    + intros i w Hi. rewrite <- (Iw i w Hi). f_equal. unfold wfuture, pending. cbn. unfold lfuture. cbn.
      rewrite LF. unfold lfuture. rewrite E. reflexivity.
    + exact Ilm.
    + exact Iwd.
    + exact Ifin.
    + intros i Hi Hne. rewrite app_length. cbn. specialize (Il i Hi). unfold lfuture in Il. rewrite E in Il. cbn in Il.
      rewrite app_assoc in Il. destruct (only_stop_last _ _ _ _ LT_nz Il) as [[H _] _].
      destruct (Nat.eqb_spec a STOP) as [Ea|Ea]. { apply H in Ea. contradiction. }
      rewrite (Isent i Hi) by (rewrite E; discriminate). lia.
    + exact Ip0'.
  - (* S_sendW *)
    pose proof (p0_tail _ _ _ Ip0 E) as Ip0'.
    assert (TL: to_leaders r = to_leaders (p0 c)) by (rewrite E; reflexivity).
    constructor; cbn; try assumption.
    + intros i Hi. unfold lfuture; cbn. rewrite TL. now apply Il.
    + intros i w Hi. rewrite <- (Iw i w Hi). f_equal. unfold wfuture, pending, send_workers. cbn. unfold lfuture. cbn.
      rewrite TL. destruct (i =? 0); [|reflexivity]. rewrite E. cbn. now rewrite <- app_assoc.
    + intros i Hi. rewrite TL. now apply Isent.
  - (* S_join *)
    pose proof (p0_tail _ _ _ Ip0 E) as Ip0'.
    assert (TL: to_leaders r = to_leaders (p0 c)) by (rewrite E; reflexivity).
    assert (TW: to_workers r = to_workers (p0 c)) by (rewrite E; reflexivity).
    constructor; cbn; try assumption.
    + intros i Hi. unfold lfuture; cbn. rewrite TL. now apply Il.
    + intros i w Hi. rewrite <- (Iw i w Hi). f_equal. unfold wfuture, pending, lfuture. cbn. now rewrite TL, TW.
    + intros i Hi. rewrite TL. now apply Isent.
  - (* L_recv *)
    constructor; cbn; try assumption.
    + intros j Hjr. rewrite <- (Il j Hjr). unfold lfuture; cbn. destruct (Nat.eq_dec j i) as [->|Hne].
      * rewrite !set1_eq, Hq. cbn. now rewrite <- app_assoc.
      * now rewrite !set1_neq.
    + intros j w Hjr. rewrite <- (Iw j w Hjr). f_equal. unfold wfuture, pending, lfuture. cbn. f_equal.
      destruct (Nat.eqb_spec j 0) as [|Hj0]; [reflexivity|]. destruct (Nat.eq_dec j i) as [->|Hne].
      * rewrite !set1_eq, Hm, Hq. cbn. unfold expand at 3. pose proof (Il i Hi) as X. unfold lfuture in X. rewrite Hq in X. cbn in X.
        destruct (only_stop_last _ _ _ _ LT_nz X) as [Y _].
        destruct (Nat.eqb_spec a STOP) as [Ea|Ea]; [|reflexivity].
        apply Y in Ea. rewrite Ea. reflexivity.
      * now rewrite !set1_neq.
    + intros j Hjr. destruct (Nat.eq_dec j i) as [->|Hne]; [|rewrite !set1_neq by assumption; now apply Ilm].
      rewrite !set1_eq. rewrite in_app_iff. rewrite (Ilm i Hi), Hm. destruct (Nat.eqb_spec a STOP) as [Ea|Ea].
      * subst. cbn. tauto.
      * cbn. split; [intros [[?|?]|[?|[]]]; try discriminate; contradiction|]. intros [?|?]; discriminate.
    + intros j Hjr. destruct (Nat.eq_dec j i) as [->|Hne]; [|rewrite !set1_neq by assumption; now apply Ifin].
      rewrite !set1_eq. rewrite filter_app, app_length; cbn. unfold nz at 2.
      specialize (Ifin i Hi). rewrite Hm in Ifin. destruct (Nat.eqb_spec a STOP) as [Ea|Ea]; cbn; lia.
    + intros j Hjr Hne0. rewrite (Isent j Hjr Hne0). destruct (Nat.eq_dec j i) as [->|Hne]; [|now rewrite !set1_neq].
      rewrite !set1_eq, Hq, app_length. cbn. lia.
  - (* L_send *)
    constructor; cbn; try assumption.
    + intros j w Hjr. rewrite <- (Iw j w Hjr). f_equal. unfold wfuture, pending, send_workers, lfuture. cbn.
      destruct (Nat.eqb_spec j i) as [->|Hne].
      * destruct (Nat.eqb_spec i 0); [lia|]. rewrite set1_eq, Hm. cbn. now rewrite <- app_assoc.
      * now rewrite set1_neq.
    + intros j Hjr. destruct (Nat.eq_dec j i) as [->|Hne]; [|rewrite !set1_neq by assumption; now apply Ilm].
      rewrite set1_eq. rewrite (Ilm i Hi), Hm. split; intros [?|?]; discriminate.
    + intros j Hjr. destruct (Nat.eq_dec j i) as [->|Hne]; [|rewrite !set1_neq by assumption; now apply Ifin].
      rewrite set1_eq. specialize (Ifin i Hi). now rewrite Hm in Ifin.
  - (* L_finish *)
    constructor; cbn; try assumption.
    + intros j w Hjr. rewrite <- (Iw j w Hjr). f_equal. unfold wfuture, pending, lfuture. cbn. f_equal.
      destruct (Nat.eqb_spec j 0) as [|Hj0]; [reflexivity|]. destruct (Nat.eq_dec j i) as [->|Hne].
      * now rewrite set1_eq, Hm.
      * now rewrite set1_neq.
    + intros j Hjr. destruct (Nat.eq_dec j i) as [->|Hne]; [|rewrite !set1_neq by assumption; now apply Ilm].
      rewrite set1_eq. rewrite (Ilm i Hi), Hm. split; intros [?|?]; discriminate.
    + intros j Hjr. destruct (Nat.eq_dec j i) as [->|Hne]; [|rewrite !set1_neq by assumption; now apply Ifin].
      rewrite !set1_eq. specialize (Ifin i Hi). rewrite Hm in Ifin. lia.
  - (* L_stop *)
    assert (Hin: In STOP (llog c i)) by (apply Ilm; [assumption|now left]).
    constructor; cbn; try assumption.
    + intros j w Hjr. rewrite <- (Iw j w Hjr). f_equal. unfold wfuture, pending, send_workers, lfuture. cbn.
      destruct (Nat.eqb_spec j i) as [->|Hne].
      * destruct (Nat.eqb_spec i 0); [lia|]. rewrite set1_eq, Hm. cbn. now rewrite app_nil_r.
      * now rewrite set1_neq.
    + intros j Hjr. destruct (Nat.eq_dec j i) as [->|Hne]; [|rewrite !set1_neq by assumption; now apply Ilm].
      rewrite set1_eq. tauto.
    + intros j Hjr. destruct (Nat.eq_dec j i) as [->|Hne]; [|rewrite !set1_neq by assumption; now apply Ifin].
      rewrite !set1_eq. specialize (Ifin i Hi). rewrite Hm in Ifin. lia.
  - (* W_recv *)
    constructor; cbn; try assumption.
    + intros j u Hjr. rewrite <- (Iw j u Hjr). unfold wfuture, set2, pending, lfuture; cbn.
      destruct (Nat.eqb_spec j i) as [->|]; [|reflexivity]. destruct (Nat.eqb_spec u w) as [->|]; [|reflexivity]. cbn [andb].
      rewrite Hq. cbn. now rewrite <- app_assoc.
    + intros j u Hjr. unfold set2. destruct (Nat.eqb_spec j i) as [->|]; [|now apply Iwd].
      destruct (Nat.eqb_spec u w) as [->|]; [|now apply Iwd]. cbn [andb]. rewrite in_app_iff, (Iwd i w Hi), Hd. cbn.
      rewrite Nat.eqb_eq. split; [intros [?|[?|[]]]; [discriminate|assumption]|]. intros H. right; now left.
Qed.

Lemma reach_inv n c : steps n (init script) c -> Inv c.
Proof.
  remember (init script) as c0. intros H. induction H; subst; [apply init_inv|]. eapply step_inv; eauto.
Qed.

(** ---- progress *)
Lemma leader_can_step c i : Inv c -> 1 <= i < ngroups -> lmode_of c i <> LDone ->
  lqueue c i <> [] \/ lmode_of c i <> LLoop -> exists c', step c c'.
Proof.
  intros I Hi Hd Hq. destruct (lmode_of c i) as [|[|a t]| |] eqn:Hm.
  - destruct (lqueue c i) as [|a q] eqn:Q; [destruct Hq; congruence|]. eexists. eapply L_recv; eauto.
  - eexists. eapply L_finish; eauto.
  - eexists. eapply L_send; eauto.
  - eexists. eapply L_stop; eauto.
  - contradiction.
Qed.

Lemma progress c : Inv c -> (exists c', step c c') \/ all_returned ngroups nworkers c.
Proof.
  intros I. pose proof I as [Il Iw Ilm Iwd Ifin Isent Ip0].
  destruct (p0 c) as [|[a|a|] r] eqn:E.
  2:{ left. eexists. eapply S_sendL; eauto. }
  2:{ left. eexists. eapply S_sendW; eauto. }
  2:{ (* Join *)
    destruct (forallb (fun i => lfinished c i =? sent c) (seq 1 (ngroups - 1))) eqn:F.
    - left. eexists. eapply S_join; eauto. intros i Hi. rewrite forallb_forall in F.
      apply Nat.eqb_eq, F, in_seq. lia.
    - assert (X: exists i, 1 <= i < ngroups /\ lfinished c i <> sent c).
      { clear - F. apply Bool.not_true_iff_false in F.
        destruct (existsb (fun i => negb (lfinished c i =? sent c)) (seq 1 (ngroups-1))) eqn:G.
        - apply existsb_exists in G. destruct G as (i & Hi & Hx). apply in_seq in Hi. exists i.
          split; [lia|]. apply Nat.eqb_neq. now apply Bool.negb_true_iff.
        - exfalso. apply F. apply forallb_forall. intros i Hi. destruct (lfinished c i =? sent c) eqn:Y; [reflexivity|].
          exfalso. apply Bool.not_true_iff_false in G. apply G, existsb_exists. exists i. rewrite Y. now split. }
      destruct X as (i & Hi & Hne). left.
      assert (TL: to_leaders (p0 c) <> []).
      { rewrite E. cbn. destruct Ip0 as [[s Hs]|[H|H]]; try discriminate.
        destruct s as [|y s]; cbn in Hs; inversion Hs; subst. rewrite to_leaders_app. destruct (to_leaders s); discriminate. }
      assert (NS: ~ In STOP (llog c i)).
      { intros Hin. apply in_split in Hin. destruct Hin as (u & v & Huv).
        specialize (Il i Hi). rewrite Huv in Il. unfold lfuture in Il. rewrite <- app_assoc in Il. cbn in Il.
        destruct (only_stop_last _ _ _ _ LT_nz Il) as [[H _] _]. specialize (H eq_refl).
        apply app_eq_nil in H. destruct H as [_ H]. apply app_eq_nil in H. destruct H as [_ H]. contradiction. }
      apply (leader_can_step c i I Hi).
      + intros Hd. apply NS, Ilm; [assumption|now right].
      + destruct (lqueue c i) as [|b q] eqn:Q; [right|left; discriminate].
        specialize (Isent i Hi ltac:(rewrite <- E; exact TL)). rewrite Q in Isent. cbn in Isent. specialize (Ifin i Hi). rewrite (filter_nz _ NS) in Ifin.
        intros Hm. rewrite Hm in Ifin. lia. }
  (* program of process 0 finished *)
  destruct (forallb (fun i => match lmode_of c i with LDone => true | _ => false end) (seq 1 (ngroups - 1))) eqn:F.
  - rewrite forallb_forall in F.
    assert (LD: forall i, 1 <= i < ngroups -> lmode_of c i = LDone).
    { intros i Hi. specialize (F i). destruct (lmode_of c i); try reflexivity; discriminate F; apply in_seq; lia. }
    destruct (forallb (fun i => forallb (wdone c i) (seq 0 (nworkers i))) (seq 0 ngroups)) eqn:G.
    + right. split; [assumption|]. split; [assumption|]. intros i w Hi Hw.
      rewrite forallb_forall in G. specialize (G i ltac:(apply in_seq; lia)). rewrite forallb_forall in G.
      apply G, in_seq. lia.
    + left.
      assert (X: exists i w, i < ngroups /\ w < nworkers i /\ wdone c i w = false).
      { clear - G.
        assert (E: forall (f : nat -> bool) l, forallb f l = false -> exists x, In x l /\ f x = false).
        { induction l as [|x l IH]; cbn; [discriminate|]. destruct (f x) eqn:Y; cbn; intros H.
          - destruct (IH H) as (y & Hy & Hf). exists y. split; [now right|assumption].
          - exists x. split; [now left|assumption]. }
        apply E in G. destruct G as (i & Hi & G). apply E in G. destruct G as (w & Hw & G).
        apply in_seq in Hi, Hw. exists i, w. repeat split; [lia..|assumption]. }
      destruct X as (i & w & Hi & Hw & Hd).
      assert (P: pending c i = []).
      { unfold pending. rewrite E. destruct (Nat.eqb_spec i 0); [reflexivity|]. now rewrite LD by lia. }
      destruct (wqueue c i w) as [|a q] eqn:Q.
      * exfalso. specialize (Iw i w Hi). unfold wfuture in Iw. rewrite Q, P in Iw. cbn in Iw. rewrite app_nil_r in Iw.
        assert (H: In STOP (wlog c i w)) by (rewrite Iw; apply in_or_app; right; now left).
        apply Iwd in H; [congruence|assumption].
      * eexists. eapply W_recv; eauto.
  - left.
    assert (E': forall (f : nat -> bool) l, forallb f l = false -> exists x, In x l /\ f x = false).
    { induction l as [|x l IH]; cbn; [discriminate|]. destruct (f x) eqn:Y; cbn; intros H.
      - destruct (IH H) as (y & Hy & Hf). exists y. split; [now right|assumption].
      - exists x. split; [now left|assumption]. }
    apply E' in F. destruct F as (i & Hi & F). apply in_seq in Hi.
    assert (Hi': 1 <= i < ngroups) by lia.
    apply (leader_can_step c i I Hi').
    + intros Hd. rewrite Hd in F. discriminate.
    + destruct (lqueue c i) as [|b q] eqn:Q; [right|left; discriminate]. intros Hm.
      specialize (Il i Hi'). unfold lfuture in Il. rewrite Q, E in Il. cbn in Il. rewrite app_nil_r in Il.
      assert (H: In STOP (llog c i)) by (rewrite Il; apply in_or_app; right; now left).
      apply Ilm in H; [|assumption]. rewrite Hm in H. destruct H; discriminate.
Qed.

(** ---- termination measure *)
Definition lcost i a := if a =? STOP then 2 else 2 + length (acts i a).
Definition lrest c i := match lmode_of c i with LLoop => 0 | LRun t => S (length t) | LStop => 1 | LDone => 0 end
   + list_sum (map (lcost i) (lfuture c i)).
Definition wrest c i := list_sum (map (fun w => length (wfuture c i w)) (seq 0 (nworkers i))).
Definition measure c := length (p0 c) + list_sum (map (lrest c) (seq 1 (ngroups - 1))) + list_sum (map (wrest c) (seq 0 ngroups)).

Lemma sum_ext (f g : nat -> nat) l : (forall i, In i l -> f i = g i) -> list_sum (map f l) = list_sum (map g l).
Proof. intros H. f_equal. now apply map_ext_in. Qed.
Lemma sum_one (f g : nat -> nat) l i : NoDup l -> In i l -> (forall j, In j l -> j <> i -> f j = g j) -> f i < g i ->
  list_sum (map f l) < list_sum (map g l).
Proof.
  induction l as [|x l IH]; intros Hn Hin Ho Hi; [destruct Hin|]. inversion Hn; subst.
  assert (C: forall h (y:nat) k, list_sum (map h (y :: k)) = h y + list_sum (map h k)) by reflexivity. rewrite !C.
  destruct (Nat.eq_dec x i) as [->|Hne].
  - rewrite (sum_ext f g l); [lia|]. intros j Hj. apply Ho; [now right|]. intros ->. contradiction.
  - destruct Hin as [?|Hin]; [contradiction|]. rewrite (Ho x) by (auto; now left).
    specialize (IH ltac:(assumption) Hin ltac:(intros; apply Ho; [now right|assumption]) Hi). lia.
Qed.

Lemma step_measure c c' : Inv c -> step c c' -> measure c' < measure c.
Proof.
  intros I S. pose proof (step_inv _ _ I S) as I'.
  assert (WF: forall i w, i < ngroups -> length (wfuture c i w) + length (wlog c i w) = length (WT i ++ [STOP])).
  { intros i w Hi. rewrite <- (i_w _ I i w Hi). rewrite app_length. lia. }
  assert (WF': forall i w, i < ngroups -> length (wfuture c' i w) + length (wlog c' i w) = length (WT i ++ [STOP])).
  { intros i w Hi. rewrite <- (i_w _ I' i w Hi). rewrite app_length. lia. }
  assert (WS: wlog c' = wlog c -> list_sum (map (wrest c') (seq 0 ngroups)) = list_sum (map (wrest c) (seq 0 ngroups))).
  { intros E. apply sum_ext. intros i Hi. apply in_seq in Hi. apply sum_ext. intros w _.
    pose proof (WF i w ltac:(lia)). pose proof (WF' i w ltac:(lia)). rewrite E in *. lia. }
  destruct S as [a r E|a r E|r E Hj|i a q Hi Hm Hq|i a t Hi Hm|i Hi Hm|i Hi Hm|i w a q Hi Hw Hd Hq];
    unfold measure; cbn [p0]; try (rewrite WS by reflexivity).
  - rewrite E. rewrite (sum_ext _ (lrest c)); [cbn; lia|]. intros i _. unfold lrest, lfuture. cbn. rewrite E. cbn.
    now rewrite <- app_assoc.
  - rewrite E. rewrite (sum_ext _ (lrest c)); [cbn; lia|]. intros i _. unfold lrest, lfuture. cbn. now rewrite E.
  - rewrite E. rewrite (sum_ext _ (lrest c)); [cbn; lia|]. intros i _. unfold lrest, lfuture. cbn. now rewrite E.
  - apply Nat.add_lt_mono_r, Nat.add_lt_mono_l. apply (sum_one _ _ _ i); [apply seq_NoDup|apply in_seq; lia| |].
    + intros j _ Hne. unfold lrest, lfuture; cbn. now rewrite !set1_neq.
    + unfold lrest, lfuture; cbn [lmode_of lqueue p0]. rewrite !set1_eq, Hm, Hq. cbn [app].
      assert (C: forall l, list_sum (map (lcost i) (a :: l)) = lcost i a + list_sum (map (lcost i) l)) by reflexivity.
      rewrite C. assert (D: lcost i a = if a =? STOP then 2 else 2 + length (acts i a)) by reflexivity. rewrite D.
      destruct (a =? STOP); lia.
  - apply Nat.add_lt_mono_r, Nat.add_lt_mono_l. apply (sum_one _ _ _ i); [apply seq_NoDup|apply in_seq; lia| |].
    + intros j _ Hne. unfold lrest, lfuture; cbn. now rewrite !set1_neq.
    + unfold lrest, lfuture; cbn [lmode_of lqueue p0]. rewrite !set1_eq, Hm. cbn. lia.
  - apply Nat.add_lt_mono_r, Nat.add_lt_mono_l. apply (sum_one _ _ _ i); [apply seq_NoDup|apply in_seq; lia| |].
    + intros j _ Hne. unfold lrest, lfuture; cbn. now rewrite !set1_neq.
    + unfold lrest, lfuture; cbn [lmode_of lqueue p0]. rewrite !set1_eq, Hm. cbn. lia.
  - apply Nat.add_lt_mono_r, Nat.add_lt_mono_l. apply (sum_one _ _ _ i); [apply seq_NoDup|apply in_seq; lia| |].
    + intros j _ Hne. unfold lrest, lfuture; cbn. now rewrite !set1_neq.
    + unfold lrest, lfuture; cbn [lmode_of lqueue p0]. rewrite !set1_eq, Hm. cbn. lia.
  - rewrite (sum_ext _ (lrest c)) by reflexivity. apply Nat.add_lt_mono_l.
    apply (sum_one _ _ _ i); [apply seq_NoDup|apply in_seq; lia| |].
    + intros j Hjin Hne. apply in_seq in Hjin. apply sum_ext. intros u _.
      pose proof (WF j u ltac:(lia)) as A. pose proof (WF' j u ltac:(lia)) as B. cbn [wlog] in B.
      rewrite (set2_neq (wlog c)) in B by (left; assumption). lia.
    + apply (sum_one _ _ _ w); [apply seq_NoDup|apply in_seq; lia| |].
      * intros u _ Hne. pose proof (WF i u ltac:(lia)) as A. pose proof (WF' i u ltac:(lia)) as B. cbn [wlog] in B.
        rewrite (set2_neq (wlog c)) in B by (right; assumption). lia.
      * pose proof (WF i w ltac:(lia)) as A. pose proof (WF' i w ltac:(lia)) as B. cbn [wlog] in B.
        rewrite (set2_eq (wlog c)) in B. rewrite app_length in B. cbn [length] in B. lia.
Qed.

Lemma steps_bound n c : steps n (init script) c -> n + measure c <= measure (init script).
Proof.
  intros H. remember (init script) as c0. induction H as [|n c0 c c'' H IH S]; [lia|]. subst.
  specialize (IH eq_refl). pose proof (step_measure _ _ (reach_inv _ _ H) S). lia.
Qed.
End Proofs.

(** No execution is longer than a bound depending only on the partition and the tasks. *)
Theorem C31_terminates : forall ngroups nworkers acts script, 1 <= ngroups -> proper acts script ->
  exists bound, forall n c, steps ngroups nworkers acts n (init script) c -> n <= bound.
Proof.
  intros g nw acts script Hg Hp. exists (measure g nw acts (init script)). intros n c H.
  pose proof (steps_bound g nw acts script Hp n c H). lia.
Qed.

(** In no reachable state are the processes stuck before everybody has returned. *)
Theorem C31_no_deadlock : forall ngroups nworkers acts script n c, 1 <= ngroups -> proper acts script ->
  steps ngroups nworkers acts n (init script) c ->
  (exists c', step ngroups nworkers acts c c') \/ all_returned ngroups nworkers c.
Proof. intros g nw acts script n c Hg Hp H. eapply progress; eauto. eapply reach_inv; eauto. Qed.

(** At every moment a process has received a prefix of its task list; when everybody has returned each leader has
    received every task sent to the leaders and then STOP, and each worker of each group every task of its
    group leader, once and in order, and then STOP. *)
Theorem C31_tasks_in_order : forall ngroups nworkers acts script n c, 1 <= ngroups -> proper acts script ->
  steps ngroups nworkers acts n (init script) c ->
  (forall i, 1 <= i < ngroups -> exists rest, llog c i ++ rest = to_leaders script ++ [STOP]) /\
  (forall i w, i < ngroups -> exists rest, wlog c i w ++ rest = worker_tasks acts script i ++ [STOP]) /\
  (all_returned ngroups nworkers c ->
     (forall i, 1 <= i < ngroups -> llog c i = to_leaders script ++ [STOP] /\ lfinished c i = length (to_leaders script)) /\
     (forall i w, i < ngroups -> w < nworkers i -> wlog c i w = worker_tasks acts script i ++ [STOP])).
Proof.
  intros g nw acts script n c Hg Hp H. pose proof (reach_inv g nw acts script Hp n c H) as I.
  split; [intros i Hi; exists (lfuture c i); exact (i_l _ _ _ _ I i Hi)|].
  split; [intros i w Hi; exists (wfuture acts c i w); exact (i_w _ _ _ _ I i w Hi)|].
  intros (E & HL & HW). split.
  - intros i Hi. pose proof (i_l _ _ _ _ I i Hi) as L.
    assert (Hin: In STOP (llog c i)) by (apply (i_lm _ _ _ _ I i Hi); right; now apply HL).
    apply in_split in Hin. destruct Hin as (u & v & Huv).
    rewrite Huv, <- app_assoc in L. cbn in L.
    destruct (only_stop_last _ _ _ _ (LT_nz acts script Hp) L) as [[X _] Y].
    specialize (X eq_refl). specialize (Y eq_refl). apply app_eq_nil in X. destruct X as [Ev _].
    assert (El: llog c i = to_leaders script ++ [STOP]) by (rewrite Huv, Y, Ev; reflexivity).
    split; [exact El|]. pose proof (i_fin _ _ _ _ I i Hi) as F. rewrite (HL i Hi), El, filter_app in F. cbn in F.
    rewrite app_nil_r in F. pose proof (filter_nz _ (LT_nz acts script Hp)) as FZ. unfold LT in FZ. rewrite FZ in F. lia.
  - intros i w Hi Hw. pose proof (i_w _ _ _ _ I i w Hi) as L.
    assert (Hin: In STOP (wlog c i w)) by (apply (i_wd _ _ _ _ I i w Hi); now apply HW).
    apply in_split in Hin. destruct Hin as (u & v & Huv).
    rewrite Huv, <- app_assoc in L. cbn in L.
    destruct (only_stop_last _ _ _ _ (WT_nz acts script Hp i) L) as [[X _] Y].
    specialize (X eq_refl). specialize (Y eq_refl). apply app_eq_nil in X. destruct X as [Ev _].
    rewrite Huv, Y, Ev. reflexivity.
Qed.

(** Consequence: whatever the schedule, a run that cannot continue ends with everybody back and all tasks done. *)
Theorem C31_every_maximal_run_completes : forall ngroups nworkers acts script n c, 1 <= ngroups -> proper acts script ->
  steps ngroups nworkers acts n (init script) c -> (forall c', ~ step ngroups nworkers acts c c') ->
  all_returned ngroups nworkers c /\
  forall i w, i < ngroups -> w < nworkers i -> wlog c i w = worker_tasks acts script i ++ [STOP].
Proof.
  intros g nw acts script n c Hg Hp H Hmax.
  destruct (C31_no_deadlock g nw acts script n c Hg Hp H) as [[c' Hc]|R]; [now apply Hmax in Hc|].
  split; [exact R|]. destruct (C31_tasks_in_order g nw acts script n c Hg Hp H) as (_ & _ & X). now apply X.
Qed.

Definition ex_acts (i a : nat) := [S (a + i); S a].
Definition ex_script := [SendL 100; SendW 100; SendW 100; Join; SendL 7; Join].
Example C31_ex : proper ex_acts ex_script /\ worker_tasks ex_acts ex_script 2 = [103; 101; 10; 8] /\
  worker_tasks ex_acts ex_script 0 = [100; 100] /\
  exists c, steps 3 (fun _ => 2) ex_acts 4 (init ex_script) c /\ llog c 1 = [100] /\ wlog c 0 1 = [100].
Proof.
  split; [|split; [reflexivity|split; [reflexivity|]]].
  - repeat split; unfold STOP; cbn.
    + intros a H. repeat (destruct H as [H|H]; [inversion H; lia|]). destruct H.
    + intros a H. repeat (destruct H as [H|H]; [inversion H; lia|]). destruct H.
    + intros i a b H. lia.
  - eexists. split.
    + eapply steps_S; [eapply steps_S; [eapply steps_S; [eapply steps_S; [apply steps_0|]|]|]|].
      * eapply S_sendL. reflexivity.
      * eapply S_sendW. reflexivity.
      * eapply (L_recv _ _ _ _ 1); [lia|reflexivity|reflexivity].
      * eapply (W_recv _ _ _ _ 0 1); [lia|lia|reflexivity|reflexivity].
    + split; reflexivity.
Qed.
Print Assumptions C31_terminates.
Print Assumptions C31_no_deadlock.
Print Assumptions C31_tasks_in_order.
Print Assumptions C31_every_maximal_run_completes.
