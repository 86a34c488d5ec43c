(** Decidable validity of a call, so that concrete histories can be checked by computation
    (used only for the non-vacuity examples and the refutation witnesses). *)
From Verif Require Import ListAux DofsModel DofsSpec GraphModel GraphInv GraphSpec.

Section E.
Context {V : Type}.
Notation st := (@st V).

Fixpoint nodupb (l : list nat) : bool :=
  match l with [] => true | a :: r => negb (existsb (Nat.eqb a) r) && nodupb r end.
Lemma nodupb_ok l : nodupb l = true -> NoDup l.
Proof.
  induction l as [|a l IH]; cbn; [constructor|]. rewrite andb_true_iff, negb_true_iff. intros [H1 H2].
  constructor; auto. intros H. assert (existsb (Nat.eqb a) l = true); [|congruence].
  apply existsb_exists. exists a. split; auto. apply Nat.eqb_refl.
Qed.

Definition wfb (d : dofs V) : bool :=
  (length (d_free d) =? length (d_x d)) && (length (d_lb d) =? length (d_x d)) &&
  (length (d_ub d) =? length (d_x d)) && (length (d_names d) =? length (d_x d)) && nodupb (d_names d).
Lemma wfb_ok d : wfb d = true -> wf d.
Proof.
  unfold wfb, wf. rewrite !andb_true_iff, !Nat.eqb_eq. intros ((((H1 & H2) & H3) & H4) & H5).
  apply nodupb_ok in H5. repeat split; auto.
Qed.

Definition valid_opb (s : st) (o : @gop V) : bool :=
  match o with
  | GNew name da hs vf dl =>
      forallb (fun a => negb (nm s a =? name)) (seq 0 (nobj s)) &&
      (match da with inl d => wfb d | inr D => D <? ncell s end) &&
      forallb (fun p => p <? nobj s) dl && (vf || nodupb dl)
  | GAddParent a _ p | GAppendParent a p | GRemoveParent a p => (a <? nobj s) && (p <? nobj s)
  | GReplaceDofs a D => (a <? nobj s) && (D <? ncell s)
  | GPopParent a _ | GStatus _ a _ | GLocalStatusAll _ a | GStatusAll _ a | GFullStatus _ a _
  | GSetX a _ | GSetFullX a _ | GSetLocalX a _ | GSetLocalFullX a _ | GSetKey a _ _
  | GSetLower a _ | GSetUpper a _ | GClear a => a <? nobj s
  end.

Lemma valid_opb_ok s o : valid_opb s o = true -> valid_op s o.
Proof.
  destruct o; cbn; rewrite ?andb_true_iff, ?Nat.ltb_lt; auto.
  intros (((H1 & H2) & H3) & H4). rewrite forallb_forall in H1, H3. repeat split.
  - intros a Ha E. specialize (H1 a). rewrite in_seq in H1. rewrite negb_true_iff, Nat.eqb_neq in H1.
    apply H1; auto. lia.
  - destruct da; [now apply wfb_ok|now apply Nat.ltb_lt].
  - intros p Hp. apply H3 in Hp. now apply Nat.ltb_lt.
  - intros ->. now apply nodupb_ok.
Qed.

(** run a list of calls with the natural set order and recursion limit [k]; [None] if some call is
    not valid or does not return *)
Fixpoint run_ops (k : nat) (s : st) (ops : list (@gop V)) : option st :=
  match ops with
  | [] => Some s
  | o :: r =>
    if valid_opb s o then
      match gstep (fun l => l) k s o with
      | Some (s', _) => run_ops k s' r
      | None => None
      end
    else None
  end.

Lemma run_ops_reachable k ops : forall s s', reachable s -> run_ops k s ops = Some s' -> reachable s'.
Proof.
  induction ops as [|o ops IH]; intros s s' R; cbn; [congruence|].
  destruct (valid_opb s o) eqn:E; [|discriminate]. destruct (gstep _ k s o) as [[s1 e]|] eqn:G; [|discriminate].
  apply IH. eapply reach_step; eauto. - now apply valid_opb_ok. - intros l. apply Permutation_refl.
Qed.

Lemma run_ops_app k ops1 ops2 : forall s, run_ops k s (ops1 ++ ops2) =
  match run_ops k s ops1 with Some s' => run_ops k s' ops2 | None => None end.
Proof.
  induction ops1 as [|o ops1 IH]; intros s; cbn; auto.
  destruct (valid_opb s o); auto. destruct (gstep _ k s o) as [[s1 e]|]; auto.
Qed.
End E.
