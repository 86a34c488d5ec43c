(** Cached evaluation on top of the graph.

    Model of the caching idiom used throughout simsopt: an object keeps its last value and a flag
    ([new_x] set by [set_recompute_flag], optimizable.py:1112-1120; the same idiom appears as
    [need_to_run_code] / [_cache] / [invalidate_cache] in the subclasses' [recompute_bell]).  On
    evaluation, if the flag is set, it evaluates its parents (which may use their own caches),
    combines their values with its own dof values by an arbitrary user function [F], stores the
    result and resets its flag; otherwise the stored value is returned. *)
From Verif Require Import ListAux DofsModel DofsSpec DofsProofs GraphModel GraphTrace GraphLists GraphInv GraphSpec GraphPres GraphPres2 GraphPres3 GraphFacts GraphFacts2.

Section C.
Context {V W : Type}.
Notation st := (@st V).
Implicit Types s : st.
Variable F : nat -> list V -> list W -> W.   (* the user's function of object [b] *)

Definition cstate := (st * (nat -> option W))%type.
Definition clear (s : st) b := set_newx s (fup (newx s) b false).

(** evaluate the parents from left to right, threading the state *)
Fixpoint evals (ev : cstate -> nat -> option (cstate * W)) (c : cstate) (ps : list nat) : option (cstate * list W) :=
  match ps with
  | [] => Some (c, [])
  | p :: r => match ev c p with
              | None => None
              | Some (c1, w) => match evals ev c1 r with
                                | None => None | Some (c2, ws) => Some (c2, w :: ws) end
              end
  end.

Fixpoint eval (k : nat) (c : cstate) (b : nat) : option (cstate * W) :=
  match k with
  | 0 => None
  | S k =>
    match newx (fst c) b, snd c b with
    | false, Some w => Some (c, w)
    | _, _ =>
      match evals (eval k) c (par (fst c) b) with
      | None => None
      | Some (c1, ws) =>
        let w := F b (d_x (cel (fst c1) (dof_of (fst c1) b))) ws in
        Some ((clear (fst c1) b, fup (snd c1) b (Some w)), w)
      end
    end
  end.

(** the value object [b] has at the current dofs, computed without any cache *)
Inductive Val s : nat -> W -> Prop :=
| val b ws : Vals s (par s b) ws -> Val s b (F b (d_x (cel s (dof_of s b))) ws)
with Vals s : list nat -> list W -> Prop :=
| vals_nil : Vals s [] []
| vals_cons p ps w ws : Val s p w -> Vals s ps ws -> Vals s (p :: ps) (w :: ws).

Scheme Val_mind := Induction for Val Sort Prop
with Vals_mind := Induction for Vals Sort Prop.

Definition CacheOK (c : cstate) := forall b w, b < nobj (fst c) -> newx (fst c) b = false -> snd c b = Some w -> Val (fst c) b w.

(** values only depend on parents, DOFs references and dof values along the lineage *)
Lemma Val_frame s s' : forall b w, Val s b w ->
  (forall o, o = b \/ Anc s o b -> par s' o = par s o /\ d_x (cel s' (dof_of s' o)) = d_x (cel s (dof_of s o))) ->
  Val s' b w.
Proof.
  apply (Val_mind s
    (fun b w _ => (forall o, o = b \/ Anc s o b -> par s' o = par s o /\ d_x (cel s' (dof_of s' o)) = d_x (cel s (dof_of s o))) -> Val s' b w)
    (fun ps ws _ => (forall p, In p ps -> forall o, o = p \/ Anc s o p -> par s' o = par s o /\ d_x (cel s' (dof_of s' o)) = d_x (cel s (dof_of s o))) -> Vals s' ps ws)).
  - intros b ws H IH HL. destruct (HL b (or_introl eq_refl)) as [E1 E2]. rewrite <- E2. apply val.
    rewrite E1. apply IH. intros p Hp o [->|Ho]; apply HL; right; [now apply anc_par|eapply anc_step; eauto].
  - intros _. constructor.
  - intros p ps w ws H1 IH1 H2 IH2 HL. constructor.
    + apply IH1. intros o Ho. eapply HL; eauto. now left.
    + apply IH2. intros q Hq. apply HL. now right.
Qed.

Lemma Val_fun s : forall b w, Val s b w -> forall w', Val s b w' -> w' = w.
Proof.
  apply (Val_mind s (fun b w _ => forall w', Val s b w' -> w' = w) (fun ps ws _ => forall ws', Vals s ps ws' -> ws' = ws)).
  - intros b ws _ IH w' H. inversion H; subst. now rewrite (IH ws0).
  - intros ws' H. inversion H; auto.
  - intros p ps w ws _ IH1 _ IH2 ws' H. inversion H; subst. f_equal; auto.
Qed.

Lemma view_frame s s' b : Inv s -> b < nobj s -> view s' b = view s b ->
  forall o, o = b \/ Anc s o b -> par s' o = par s o /\ d_x (cel s' (dof_of s' o)) = d_x (cel s (dof_of s o)).
Proof.
  intros I Hb Hv o Ho. unfold view in Hv.
  assert (El : ancestors s' b ++ [b] = ancestors s b ++ [b]).
  { assert (E := f_equal (map (fun x => fst (fst x))) Hv). rewrite !map_map in E. cbn in E. now rewrite !map_id in E. }
  rewrite El in Hv.
  assert (Hin : In o (ancestors s b ++ [b])) by (now apply lineage_Anc).
  assert (K : forall l, map (fun o => (o, par s' o, d_x (cel s' (dof_of s' o)))) l = map (fun o => (o, par s o, d_x (cel s (dof_of s o)))) l ->
      In o l -> par s' o = par s o /\ d_x (cel s' (dof_of s' o)) = d_x (cel s (dof_of s o))).
  { induction l as [|x l IH]; intros E Hl; [destruct Hl|]. cbn in E. injection E as E1 E2 E3.
    destruct Hl as [->|Hl]; auto. }
  eapply K; eauto.
Qed.

(** states that differ in flags only *)
Definition flags_only s s' := s' = set_newx s (newx s').
Lemma flags_only_refl s : flags_only s s.
Proof. unfold flags_only. destruct s; reflexivity. Qed.
Lemma flags_only_trans s1 s2 s3 : flags_only s1 s2 -> flags_only s2 s3 -> flags_only s1 s3.
Proof. unfold flags_only. intros H1 H2. rewrite H2 at 1. rewrite H1. reflexivity. Qed.
Lemma flags_Val s s' b w : flags_only s s' -> (Val s b w <-> Val s' b w).
Proof.
  intros H. split; intros HV; eapply Val_frame; eauto; intros o _; rewrite H; auto.
Qed.
Lemma flags_CacheOK_eval (c c1 : cstate) b w : flags_only (fst c) (fst c1) -> Val (fst c) b w -> CacheOK c1 ->
  CacheOK (clear (fst c1) b, fup (snd c1) b (Some w)).
Proof.
  intros HF HV HC x w' Hx Hn Hw. cbn in *. unfold fup in *. destruct (Nat.eqb_spec x b) as [->|N].
  - injection Hw as <-. eapply (flags_Val (fst c)); eauto. rewrite HF. reflexivity.
  - apply (flags_Val (fst c1) (clear (fst c1) b)); [reflexivity|]. apply HC; auto.
Qed.

Lemma eval_correct k : forall c b c' w, GInv (fst c) -> b < nobj (fst c) -> CacheOK c -> eval k c b = Some (c', w) ->
  flags_only (fst c) (fst c') /\ CacheOK c' /\ Val (fst c) b w.
Proof.
  induction k as [|k IH]; intros c b c' w G Hb HC H; [discriminate|]. cbn [eval] in H.
  assert (HE : forall ps c0 c1 ws, flags_only (fst c) (fst c0) -> CacheOK c0 -> (forall p, In p ps -> p < nobj (fst c)) ->
     evals (eval k) c0 ps = Some (c1, ws) -> flags_only (fst c) (fst c1) /\ CacheOK c1 /\ Vals (fst c) ps ws).
  { induction ps as [|p ps IHp]; intros c0 c1 ws F0 C0 Hps HE; cbn in HE.
    - injection HE as <- <-. split; auto. split; auto. constructor.
    - destruct (eval k c0 p) as [[c2 w2]|] eqn:E2; [|discriminate].
      destruct (evals (eval k) c2 ps) as [[c3 ws3]|] eqn:E3; [|discriminate]. injection HE as <- <-.
      apply IH in E2; auto.
      2:{ rewrite F0. destruct G; constructor; auto. }
      2:{ rewrite F0. apply Hps. now left. }
      destruct E2 as (F2 & C2 & V2). apply IHp in E3; [|eapply flags_only_trans; eauto|auto|intros; apply Hps; now right].
      destruct E3 as (F3 & C3 & V3). split; auto. split; auto. constructor; auto.
      now apply (flags_Val (fst c) (fst c0)). }
  assert (HR : forall c1 ws, evals (eval k) c (par (fst c) b) = Some (c1, ws) ->
     let w0 := F b (d_x (cel (fst c1) (dof_of (fst c1) b))) ws in
     flags_only (fst c) (fst (clear (fst c1) b, fup (snd c1) b (Some w0))) /\
     CacheOK (clear (fst c1) b, fup (snd c1) b (Some w0)) /\ Val (fst c) b w0).
  { intros c1 ws E. apply HE in E; auto; [|apply flags_only_refl|intros p Hp; exact (gi_par _ G b p Hb Hp)].
    destruct E as (F1 & C1 & V1). cbv zeta.
    assert (HV : Val (fst c) b (F b (d_x (cel (fst c1) (dof_of (fst c1) b))) ws)).
    { rewrite F1. cbn [cel dof_of set_newx]. now apply val. }
    split; [|split; auto].
    - eapply flags_only_trans; eauto. reflexivity.
    - eapply flags_CacheOK_eval; eauto. }
  destruct (newx (fst c) b) eqn:En; [|destruct (snd c b) as [w0|] eqn:Ew].
  - destruct (evals _ _ _) as [[c1 ws]|] eqn:E; [|discriminate]. injection H as <- <-. now apply HR.
  - injection H as <- <-. split; [apply flags_only_refl|]. split; auto.
  - destruct (evals _ _ _) as [[c1 ws]|] eqn:E; [|discriminate]. injection H as <- <-. now apply HR.
Qed.

(** evaluation returns when the recursion limit exceeds the number of objects *)
Lemma eval_returns_rank (rank : nat -> nat) s0 : GInv s0 -> ranked s0 rank ->
  forall k c b, flags_only s0 (fst c) -> b < nobj s0 -> rank b < k -> exists c' w, eval k c b = Some (c', w) /\ flags_only s0 (fst c').
Proof.
  intros G Hr k; induction k as [|k IH]; intros c b HF Hb Hk; [lia|]. cbn [eval].
  assert (Hp : par (fst c) b = par s0 b) by (rewrite HF; reflexivity).
  assert (HE : forall ps c0, flags_only s0 (fst c0) -> (forall p, In p ps -> In p (par s0 b)) ->
     exists c1 ws, evals (eval k) c0 ps = Some (c1, ws) /\ flags_only s0 (fst c1)).
  { induction ps as [|p ps IHp]; intros c0 F0 Hps; cbn; [eauto|].
    assert (Hpp := Hps p (or_introl eq_refl)). assert (Hpr := Hr b p Hb Hpp).
    destruct (IH c0 p) as (c2 & w2 & -> & F2); auto; [exact (gi_par s0 G b p Hb Hpp)|lia|].
    destruct (IHp c2) as (c3 & w3 & -> & F3); auto; [intros; apply Hps; now right|]. eauto. }
  destruct (HE (par (fst c) b) c HF) as (c1 & ws & E & F1); [now rewrite Hp|].
  rewrite E.
  assert (HF2 : flags_only s0 (clear (fst c1) b)) by (eapply flags_only_trans; eauto; reflexivity).
  destruct (newx (fst c) b), (snd c b); do 2 eexists; (split; [reflexivity|]); auto.
Qed.

Lemma eval_returns c b k : Inv (fst c) -> b < nobj (fst c) -> nobj (fst c) <= k -> exists c' w, eval k c b = Some (c', w).
Proof.
  intros I Hb Hk. destruct (inv_ac _ I) as (rank & Hr). destruct (compress_rank rank (nobj (fst c))) as (r2 & H1 & H2).
  destruct (eval_returns_rank r2 (fst c)) with (k := k) (c := c) (b := b) as (c' & w & E & _); eauto.
  - apply I.
  - intros a p Ha Hp. apply H2; auto. exact (gi_par _ (inv_g _ I) a p Ha Hp).
  - apply flags_only_refl.
  - specialize (H1 b Hb). lia.
Qed.

(** ** programs: graph operations and evaluations in any order *)
Inductive cop := Mut (o : @gop V) | Ev (b : nat).

Inductive creach : cstate -> Prop :=
| creach_init : creach (init_st, fun _ => None)
| creach_mut s c s' e ord fuel o : creach (s, c) -> valid_op s o -> ~ is_clear o -> any_order ord ->
    gstep ord fuel s o = Some (s', e) -> creach (s', c)
| creach_eval c b fuel c' w : creach c -> b < nobj (fst c) -> eval fuel c b = Some (c', w) -> creach c'.

Lemma flags_inv s s' : Inv s -> flags_only s s' -> Inv s'.
Proof.
  intros I H. eapply same_graph_inv; eauto. rewrite H. repeat split; auto; now apply (gi_wf s (inv_g s I)).
Qed.

(** no value is ever cached for an object number that has not been handed out *)
Definition Unborn (c : cstate) := forall b, nobj (fst c) <= b -> snd c b = None.

Lemma eval_unborn k : forall c b c' w, GInv (fst c) -> b < nobj (fst c) -> eval k c b = Some (c', w) ->
  (forall x, nobj (fst c) <= x -> snd c' x = snd c x) /\ flags_only (fst c) (fst c').
Proof.
  induction k as [|k IH]; intros c b c' w G Hb H; [discriminate|]. cbn [eval] in H.
  assert (HE : forall ps c0 c1 ws, flags_only (fst c) (fst c0) -> (forall p, In p ps -> p < nobj (fst c)) ->
     evals (eval k) c0 ps = Some (c1, ws) -> flags_only (fst c) (fst c1) /\ (forall x, nobj (fst c) <= x -> snd c1 x = snd c0 x)).
  { induction ps as [|p ps IHp]; intros c0 c1 ws F0 Hps HE; cbn in HE.
    - injection HE as <- <-. auto.
    - destruct (eval k c0 p) as [[c2 w2]|] eqn:E2; [|discriminate].
      destruct (evals (eval k) c2 ps) as [[c3 ws3]|] eqn:E3; [|discriminate]. injection HE as <- <-.
      assert (N0 : nobj (fst c0) = nobj (fst c)) by (rewrite F0; reflexivity).
      apply IH in E2.
      2:{ rewrite F0. destruct G; constructor; auto. }
      2:{ rewrite N0. apply Hps. now left. }
      destruct E2 as (U2 & F2). rewrite N0 in U2.
      apply IHp in E3; [|eapply flags_only_trans; eauto|intros; apply Hps; now right].
      destruct E3 as (F3 & U3). split; auto. intros x Hx. rewrite U3, U2; auto. }
  assert (HR : forall c1 ws, evals (eval k) c (par (fst c) b) = Some (c1, ws) -> forall w0,
     (forall x, nobj (fst c) <= x -> snd (clear (fst c1) b, fup (snd c1) b (Some w0)) x = snd c x) /\
     flags_only (fst c) (fst (clear (fst c1) b, fup (snd c1) b (Some w0)))).
  { intros c1 ws E w0. apply HE in E; auto; [|apply flags_only_refl|intros p Hp; exact (gi_par _ G b p Hb Hp)].
    destruct E as (F1 & U1). split.
    - intros x Hx. cbn. rewrite fup_other by lia. auto.
    - eapply flags_only_trans; eauto. reflexivity. }
  destruct (newx (fst c) b); [|destruct (snd c b) as [w0|]].
  - destruct (evals _ _ _) as [[c1 ws]|] eqn:E; [|discriminate]. injection H as <- <-. eapply HR; eauto.
  - injection H as <- <-. split; auto. apply flags_only_refl.
  - destruct (evals _ _ _) as [[c1 ws]|] eqn:E; [|discriminate]. injection H as <- <-. eapply HR; eauto.
Qed.

Lemma creach_ok c : creach c -> Inv (fst c) /\ CacheOK c /\ Unborn c.
Proof.
  induction 1 as [|s c s' e ord fuel o H (I & C & U) Hv Hc Ho Hg|c b fuel c' w H (I & C & U) Hb He].
  - split; [apply init_inv|]. split; [intros b w Hb; cbn in Hb; lia|]. intros b _. reflexivity.
  - cbn [fst snd] in *. destruct (gstep_frame ord fuel Ho s o s' e I Hv Hc Hg) as [Fr Hn].
    split; [eapply gstep_inv; eauto|]. split.
    + intros b w Hb Hx Hw. cbn in *. destruct (Nat.lt_ge_cases b (nobj s)) as [Hl|Hl].
      * destruct (Fr b Hl Hx) as [Hx0 Hview]. eapply Val_frame; [apply C; eauto|]. cbn. now apply view_frame.
      * assert (X := U b Hl). cbn in X. congruence.
    + intros b Hb. cbn in *. apply U. cbn. lia.
  - assert (X := eval_correct fuel c b c' w (inv_g _ I) Hb C He). destruct X as (Fl & C' & V').
    assert (Y := eval_unborn fuel c b c' w (inv_g _ I) Hb He). destruct Y as (U' & _).
    split; [eapply flags_inv; eauto|]. split; auto. intros x Hx. rewrite Fl in Hx. cbn in Hx. rewrite U'; auto.
Qed.

Theorem cached_eval_correct c b fuel c' w : creach c -> b < nobj (fst c) -> eval fuel c b = Some (c', w) -> Val (fst c) b w.
Proof. intros H Hb He. destruct (creach_ok c H) as (I & C & _). eapply eval_correct; eauto. apply I. Qed.
End C.
