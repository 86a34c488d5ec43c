(** C122: ReducedCoilSet. *)
From Coq Require Import Reals Lra Lia List Bool Arith.
From Verif Require Import ListAux VecAux CurveObjModel CurveObjProps WFGeom TensorSym BoozProps RedModel.
Import ListNotations.
Open Scope R_scope.

Lemma nth_firstn {A} (d : A) : forall k l i, (i < k)%nat -> nth i (firstn k l) d = nth i l d.
Proof. induction k as [|k IH]; intros l i H; [lia|]. destruct l as [|a l]; [reflexivity|]. destruct i as [|i]; [reflexivity|]. cbn. apply IH. lia. Qed.
(** specification: the coil dofs that amplitudes [v] of the rows of [V] stand for *)
Definition position (x0 : list R) (V : list (list R)) (v : list R) (j : nat) : R := nth j x0 0 + sum_to (length v) (fun i => nth i v 0 * nth j (nth i V []) 0).
(** an SVD of a jacobian with n columns: vh is n by n, at most n singular values *)
Definition shaped (n : nat) (d : list R) (v : list (list R)) (c : nat) : Prop := length v = n /\ c = n /\ (length d <= n)%nat.
Definition op_shaped (n : nat) (o : op) : Prop := match o with Recalc _ d v c => shaped n d v c | _ => True end.

Record Inv (n : nat) (s : rcs) : Prop := mkInv { i_cx : length (cx s) = n; i_x0 : length (x0 s) = n; i_sh : shaped n (sd s) (vh s) (ncol s);
  i_nsv : (nsv s <= length (sd s))%nat; i_x : length (x s) = nsv s; i_free : length (free s) = nsv s }.
Lemma new_Inv coil k u d v c s : shaped (length coil) d v c -> new coil k (Some (u, d, v, c)) = Some s -> Inv (length coil) s.
Proof.
  intros SH. unfold new. destruct k as [k|]; [destruct (Nat.ltb_spec (length d) k)|destruct (Nat.ltb_spec (length d) (length coil))]; [discriminate| |discriminate|]; intros [= <-]; split; cbn [cx x0 sd vh ncol nsv x free]; rewrite ?repeat_length; auto.
Qed.
Lemma pad_nth v k i : nth i (v ++ repeat 0 k) 0 = nth i v 0.
Proof. destruct (lt_dec i (length v)); [now apply app_nth1|]. rewrite app_nth2 by lia. rewrite (nth_overflow v) by lia. apply nth_repeat. Qed.
Lemma sum_pad (V : list (list R)) v N j : (length v <= N)%nat -> sum_to N (fun i => nth i v 0 * nth j (nth i V []) 0) = sum_to (length v) (fun i => nth i v 0 * nth j (nth i V []) 0).
Proof.
  intros H. replace N with (length v + (N - length v))%nat by lia. rewrite sum_to_add. rewrite (sum_0 (N - length v)); [ring|]. intros i _. rewrite (nth_overflow v) by lia. ring.
Qed.
Lemma target_ok n s v : Inv n s -> length v = nsv s -> target s v = Some (map (position (x0 s) (vh s) v) (seq 0 n)).
Proof.
  intros [A B (C1 & C2 & C3) D E F] L. unfold target. rewrite (proj2 (Nat.eqb_eq _ _) L). cbn [negb]. replace (length (x0 s) <? nsv s)%nat with false by (symmetry; apply Nat.ltb_ge; lia).
  unfold vecmul. rewrite app_length, repeat_length. replace (length v + (length (x0 s) - nsv s) =? length (vh s))%nat with true by (symmetry; apply Nat.eqb_eq; lia).
  unfold vadd. rewrite map_length, seq_length, B, C2, Nat.eqb_refl. rewrite map_length, seq_length, A, Nat.eqb_refl. f_equal. apply map_ext_in. intros j J. apply in_seq in J. unfold position. f_equal.
  rewrite (nth_indep _ 0 ((fun j => sum_to (length (vh s)) (fun i => nth i (v ++ repeat 0 (n - nsv s)) 0 * nth j (nth i (vh s) []) 0)) 0%nat)) by (rewrite map_length, seq_length; lia). rewrite (map_nth (fun j => sum_to (length (vh s)) (fun i => nth i (v ++ repeat 0 (n - nsv s)) 0 * nth j (nth i (vh s) []) 0))), seq_nth by lia. cbn [Nat.add].
  rewrite <- (sum_pad (vh s) v (length (vh s)) j) by lia. apply sum_to_ext. intros i _. now rewrite pad_nth.
Qed.
Lemma store_ok n s v : Inv n s -> length v = nsv s -> store s v = (RCS (map (position (x0 s) (vh s) v) (seq 0 n)) (x0 s) (vh s) (ncol s) (um s) (sd s) (nsv s) v (free s), true).
Proof. intros I L. unfold store. now rewrite (target_ok n s v I L). Qed.
Lemma store_Inv n s v : Inv n s -> length v = nsv s -> Inv n (fst (store s v)).
Proof. intros I L. rewrite (store_ok n s v I L). destruct I as [A B C D E F]. split; cbn [fst cx x0 sd vh ncol nsv x free]; auto. now rewrite map_length, seq_length. Qed.
Lemma put_free_length : forall fr v w, length (put_free fr v w) = length w.
Proof. induction fr as [|b fr IH]; intros v w; [reflexivity|]. destruct b, w as [|a w]; try reflexivity; [destruct v; [reflexivity|]|]; cbn [put_free length]; now rewrite IH. Qed.
Lemma put_free_get : forall fr v w, length w = length fr -> length v = length (filter snd (combine w fr)) -> map fst (filter snd (combine (put_free fr v w) fr)) = v.
Proof.
  induction fr as [|b fr IH]; intros v w L H; destruct w as [|a w]; try discriminate.
  - destruct v; [reflexivity|discriminate].
  - cbn [length combine filter snd] in *. injection L as L. destruct b; cbn [length] in H.
    + destruct v as [|c v]; [discriminate|]. injection H as H. cbn [put_free combine filter snd map fst]. f_equal. now apply IH.
    + cbn [put_free combine filter snd]. now apply IH.
Qed.
Lemma put_free_fixed : forall fr v w i, nth i fr true = false -> nth i (put_free fr v w) 0 = nth i w 0.
Proof.
  induction fr as [|b fr IH]; intros v w i H; [destruct i; discriminate|]. destruct w as [|a w]; [destruct b; reflexivity|]. destruct b.
  - destruct v as [|c v]; [reflexivity|]. cbn [put_free]. destruct i as [|i]; [discriminate|]. cbn [nth] in *. now apply IH.
  - cbn [put_free]. destruct i as [|i]; [reflexivity|]. cbn [nth] in *. now apply IH.
Qed.
Lemma free_x_all s : free s = repeat true (length (x s)) -> free_x s = x s.
Proof. intros H. unfold free_x. rewrite H. clear. induction (x s) as [|a l IH]; [reflexivity|]. cbn [length repeat combine filter snd map fst]. now rewrite IH. Qed.
Lemma nsv_Inv n s k : Inv n s -> Inv n (fst (set_nsv s k)).
Proof.
  intros I. pose proof I as [A B C D E F]. unfold set_nsv. set (k' := match k with Some k => k | None => length (sd s) end). destruct (Nat.ltb_spec (length (sd s)) k'); [exact I|]. split; cbn [fst cx x0 sd vh ncol nsv x free]; auto; [|now rewrite repeat_length].
  rewrite app_length, firstn_length, repeat_length. lia.
Qed.
Lemma recalc_ok n s u d v c : Inv n s -> recalc s u d v c = (let k := Nat.min (nsv s) (length d) in RCS (cx s) (cx s) v c u d k (repeat 0 k) (repeat true k), true).
Proof. intros I. destruct I as [A B C D E F]. unfold recalc, set_nsv. destruct (Nat.ltb_spec (length (sd s)) (Nat.min (nsv s) (length d))); [lia|]. reflexivity. Qed.
Lemma step_Inv n s o : op_shaped n o -> Inv n s -> Inv n (step s o).
Proof.
  intros SH I. destruct o as [v|v|i b|v|k|u d v c]; unfold step.
  - unfold set_x. destruct (negb _); [exact I|]. apply store_Inv; [exact I|]. rewrite put_free_length. apply I.
  - unfold set_full. destruct (Nat.eqb_spec (length v) (length (x s))) as [E|E]; [|exact I]. cbn [negb]. apply store_Inv; [exact I|]. rewrite E. apply I.
  - unfold set_free. destruct (Nat.ltb_spec i (length (free s))); [|exact I]. destruct I as [A B C D E F]. split; cbn [fst cx x0 sd vh ncol nsv x free]; auto. now rewrite map_length, seq_length.
  - unfold set_coil. destruct (Nat.eqb_spec (length v) (length (cx s))) as [E|E]; [|exact I]. destruct I as [A B C D E' F]. split; cbn [negb fst cx x0 sd vh ncol nsv x free]; auto. lia.
  - now apply nsv_Inv.
  - rewrite (recalc_ok n s u d v c I). destruct I as [A B C D E' F]. cbn [op_shaped] in SH. split; cbn [negb fst cx x0 sd vh ncol nsv x free]; auto; rewrite ?repeat_length; lia.
Qed.
Lemma run_Inv n : forall os s, Forall (op_shaped n) os -> Inv n s -> Inv n (run s os).
Proof. induction os as [|o os IH]; intros s F I; [exact I|]. inversion F; subst. apply IH; [assumption|]. now apply step_Inv. Qed.
(** the states a user can reach *)
Definition reachable (n : nat) (s : rcs) : Prop := exists coil k u d v c s0 os, length coil = n /\ shaped n d v c /\ new coil k (Some (u, d, v, c)) = Some s0 /\ Forall (op_shaped n) os /\ s = run s0 os.
Lemma reach_Inv n s : reachable n s -> Inv n s.
Proof. intros (coil & k & u & d & v & c & s0 & os & L & SH & NW & F & ->). apply run_Inv; [exact F|]. rewrite <- L. rewrite <- L in SH. eapply new_Inv; eassumption. Qed.
Lemma nth_position (g : nat -> R) n j : (j < n)%nat -> nth j (map g (seq 0 n)) 0 = g j.
Proof. intros J. rewrite (nth_indep _ 0 (g 0%nat)) by (rewrite map_length, seq_length; lia). now rewrite map_nth, seq_nth by lia. Qed.

(** Assigning the dofs places the coils at the reference position plus the amplitudes times the rows of V, whatever happened before *)
Theorem C122_assign (n : nat) (s : rcs) (v : list R) : reachable n s ->
  (length v = nsv s -> let (s', ok) := set_full s v in ok = true /\ length (cx s') = n /\ (forall j, (j < n)%nat -> nth j (cx s') 0 = position (x0 s) (vh s) v j) /\ x s' = v /\ x0 s' = x0 s /\ vh s' = vh s /\ nsv s' = nsv s /\ free s' = free s) /\
  (length v = length (free_x s) -> let (s', ok) := set_x s v in ok = true /\ free_x s' = v /\ (forall i, nth i (free s) true = false -> nth i (x s') 0 = nth i (x s) 0) /\ length (cx s') = n /\ (forall j, (j < n)%nat -> nth j (cx s') 0 = position (x0 s) (vh s) (x s') j) /\ x0 s' = x0 s /\ vh s' = vh s /\ nsv s' = nsv s /\ free s' = free s) /\
  (length v <> length (x s) -> set_full s v = (s, false)) /\ (length v <> length (free_x s) -> set_x s v = (s, false)) /\ length (x s) = nsv s.
Proof.
  intros RE. pose proof (reach_Inv n s RE) as I. split; [|split; [|split; [|split; [|apply I]]]].
  - intros L. unfold set_full. rewrite (proj2 (Nat.eqb_eq _ _) (eq_trans L (eq_sym (i_x n s I)))). cbn [negb]. rewrite (store_ok n s v I L). cbn [cx x x0 vh nsv free]. split; [reflexivity|]. split; [now rewrite map_length, seq_length|]. split; [intros j J; now apply nth_position|]. repeat split.
  - intros L. unfold set_x. rewrite (proj2 (Nat.eqb_eq _ _) L). cbn [negb]. assert (L' : length (put_free (free s) v (x s)) = nsv s) by (rewrite put_free_length; apply I). rewrite (store_ok n s _ I L'). cbn [cx x x0 vh nsv free]. split; [reflexivity|].
    split; [|split; [intros i Q; now apply put_free_fixed|split; [now rewrite map_length, seq_length|split; [intros j J; now apply nth_position|repeat split]]]].
    unfold free_x at 1. cbn [x free]. apply put_free_get; [rewrite (i_x n s I), (i_free n s I); reflexivity|]. rewrite L. unfold free_x. now rewrite map_length.
  - intros L. unfold set_full. now rewrite (proj2 (Nat.eqb_neq _ _) L).
  - intros L. unfold set_x. now rewrite (proj2 (Nat.eqb_neq _ _) L).
Qed.
(** the coils are where the dofs say *)
Definition consistent (n : nat) (s : rcs) : Prop := forall j, (j < n)%nat -> nth j (cx s) 0 = position (x0 s) (vh s) (x s) j.
Lemma position_0 a V k j : position a V (repeat 0 k) j = nth j a 0.
Proof. unfold position. rewrite sum_0; [ring|]. intros i _. rewrite nth_repeat. ring. Qed.
(** Rebuilding the basis does not move the coils: the current position is the new reference and all amplitudes are zero and free *)
Theorem C122_recalculate (n : nat) (s : rcs) (u : list (list R)) (d : list R) (v : list (list R)) (c : nat) : reachable n s -> shaped n d v c ->
  let (s', ok) := recalc s u d v c in ok = true /\ cx s' = cx s /\ x0 s' = cx s /\ nsv s' = Nat.min (nsv s) (length d) /\ x s' = repeat 0 (nsv s') /\ free s' = repeat true (nsv s') /\ rsv s' = map (fun i => nth i v []) (seq 0 (nsv s')) /\ singular_values s' = firstn (nsv s') d /\ consistent n s'.
Proof.
  intros RE SH. rewrite (recalc_ok n s u d v c (reach_Inv n s RE)). cbn zeta. cbn [cx x0 nsv x free]. repeat (split; [reflexivity|]). intros j J. cbn [cx x0 vh x]. now rewrite position_0.
Qed.
(** Every assignment and every rebuild leaves the coils where the dofs say; fixing keeps it so.  Changing nsv never moves the coils: it keeps
    the correspondence exactly when the amplitudes no longer counted contribute nothing *)
Theorem C122_consistent (n : nat) (s : rcs) (o : op) : reachable n s -> op_shaped n o -> consistent n s ->
  match o with SetX _ | SetFull _ | SetFree _ _ | Recalc _ _ _ _ => consistent n (step s o) | _ => True end.
Proof.
  intros RE SH CO. pose proof (reach_Inv n s RE) as I. destruct o as [v|v|i b|v|k|u d v c]; auto; unfold step.
  - unfold set_x. destruct (negb _); [exact CO|]. rewrite (store_ok n s _ I) by (rewrite put_free_length; apply I). intros j J. cbn [fst cx x0 vh x]. now apply nth_position.
  - unfold set_full. destruct (Nat.eqb_spec (length v) (length (x s))) as [E|E]; [|exact CO]. cbn [negb]. rewrite (store_ok n s _ I) by (rewrite E; apply I). intros j J. cbn [fst cx x0 vh x]. now apply nth_position.
  - unfold set_free. destruct (_ <? _)%nat; exact CO.
  - rewrite (recalc_ok n s u d v c I). intros j J. cbn [fst cx x0 vh x]. now rewrite position_0.
Qed.
Lemma position_cut a V v k j : (k <= length v)%nat -> position a V v j = position a V (firstn k v) j + sum_to (length v - k) (fun i => nth (k + i) v 0 * nth j (nth (k + i) V []) 0).
Proof.
  intros H. unfold position. rewrite firstn_length, Nat.min_l by exact H. replace (length v) with (k + (length v - k))%nat at 1 by lia. rewrite sum_to_add. rewrite (sum_to_ext k (fun i => nth i (firstn k v) 0 * _) (fun i => nth i v 0 * nth j (nth i V []) 0)); [ring|]. intros i K. now rewrite nth_firstn by exact K.
Qed.
Theorem C122_nsv (n : nat) (s : rcs) (k : nat) : reachable n s -> free s = repeat true (nsv s) ->
  ((length (sd s) < k)%nat -> set_nsv s (Some k) = (s, false)) /\
  ((k <= length (sd s))%nat -> let (s', ok) := set_nsv s (Some k) in ok = true /\ cx s' = cx s /\ x0 s' = x0 s /\ nsv s' = k /\
    (forall i, (i < k)%nat -> nth i (x s') 0 = nth i (x s) 0) /\ length (x s') = k /\
    (consistent n s -> (consistent n s' <-> forall j, (j < n)%nat -> sum_to (nsv s - k) (fun i => nth (k + i) (x s) 0 * nth j (nth (k + i) (vh s) []) 0) = 0))).
Proof.
  intros RE FR. pose proof (reach_Inv n s RE) as I. pose proof (i_x n s I) as LX. unfold set_nsv. split; intros H; [now rewrite (proj2 (Nat.ltb_lt _ _) H)|]. rewrite (proj2 (Nat.ltb_ge _ _) H). rewrite (free_x_all s) by (now rewrite LX). cbn [cx x0 nsv x vh].
  repeat (split; [reflexivity|]). split; [|split].
  - intros i K. rewrite pad_nth. destruct (lt_dec i (length (x s))); [now rewrite nth_firstn by exact K|]. rewrite !nth_overflow; try reflexivity; [lia|]. rewrite firstn_length. lia.
  - rewrite app_length, firstn_length, repeat_length. lia.
  - intros CO. unfold consistent. cbn [cx x0 vh x]. assert (P : forall j, position (x0 s) (vh s) (firstn k (x s) ++ repeat 0 (k - length (x s))) j = position (x0 s) (vh s) (firstn k (x s)) j).
    { intros j. unfold position. f_equal. rewrite <- (sum_pad (vh s) (firstn k (x s)) (length (firstn k (x s) ++ repeat 0 (k - length (x s)))) j) by (rewrite app_length; lia). apply sum_to_ext. intros i _. now rewrite pad_nth. }
    destruct (le_dec k (length (x s))) as [KL|KL].
    + split; intros Q j J; specialize (Q j J); rewrite ?P in *; specialize (CO j J); rewrite (position_cut _ _ _ k j KL) in CO; rewrite LX in CO; lra.
    + split; intros Q j J; [replace (nsv s - k)%nat with 0%nat by lia; reflexivity|]. rewrite P, firstn_all2 by lia. now apply CO.
Qed.
(** ** Orthonormal rows *)
Definition orthonormal (n : nat) (V : list (list R)) : Prop := forall i k, (i < n)%nat -> (k < n)%nat -> sum_to n (fun j => nth j (nth i V []) 0 * nth j (nth k V []) 0) = if (i =? k)%nat then 1 else 0.
Lemma project n V (w : nat -> R) m k : orthonormal n V -> (m <= n)%nat -> (k < n)%nat -> sum_to n (fun j => sum_to m (fun i => w i * nth j (nth i V []) 0) * nth j (nth k V []) 0) = if (k <? m)%nat then w k else 0.
Proof.
  intros O M K. transitivity (sum_to m (fun i => if (i =? k)%nat then w i else 0)).
  - rewrite (sum_to_ext n _ (fun j => sum_to m (fun i => w i * nth j (nth i V []) 0 * nth j (nth k V []) 0))) by (intros j _; rewrite Rmult_comm, <- (sum_to_scal m); apply sum_to_ext; intros; ring). rewrite sum_to_swap. apply sum_to_ext. intros i Hi.
    rewrite (sum_to_ext n _ (fun j => w i * (nth j (nth i V []) 0 * nth j (nth k V []) 0))) by (intros; ring). rewrite (sum_to_scal n (w i) (fun j => nth j (nth i V []) 0 * nth j (nth k V []) 0)), O by lia. destruct (i =? k)%nat; ring.
  - destruct (Nat.ltb_spec k m) as [L|L]; [now apply sum_to_single|]. apply sum_0. intros i Hi. replace (i =? k)%nat with false; [reflexivity|]. symmetry. apply Nat.eqb_neq. lia.
Qed.
(** Distances between coil configurations are the distances between the amplitude vectors, and the amplitudes can be read off the coils *)
Theorem C122_isometry (n : nat) (a : list R) (V : list (list R)) (v w : list R) : orthonormal n V -> (length v <= n)%nat -> length w = length v ->
  sum_to n (fun j => (position a V v j - position a V w j) ^ 2) = sum_to (length v) (fun i => (nth i v 0 - nth i w 0) ^ 2) /\
  (forall k, (k < length v)%nat -> sum_to n (fun j => (position a V v j - nth j a 0) * nth j (nth k V []) 0) = nth k v 0) /\
  ((forall j, (j < n)%nat -> position a V v j = position a V w j) -> v = w).
Proof.
  intros O L LW. set (m := length v) in *.
  assert (PR : forall (z : nat -> R) k, (k < m)%nat -> sum_to n (fun j => sum_to m (fun i => z i * nth j (nth i V []) 0) * nth j (nth k V []) 0) = z k) by (intros z k K; rewrite (project n V z m k O L) by lia; now rewrite (proj2 (Nat.ltb_lt _ _) K)).
  assert (RD : forall u, length u = m -> forall k, (k < m)%nat -> sum_to n (fun j => (position a V u j - nth j a 0) * nth j (nth k V []) 0) = nth k u 0).
  { intros u LU k K. rewrite <- (PR (fun i => nth i u 0) k K). apply sum_to_ext. intros j _. unfold position. rewrite LU. ring. }
  split; [|split].
  - set (z := fun i => nth i v 0 - nth i w 0).
    assert (E : forall j, position a V v j - position a V w j = sum_to m (fun i => z i * nth j (nth i V []) 0)).
    { intros j. unfold position. rewrite LW. fold m. transitivity (sum_to m (fun i => nth i v 0 * nth j (nth i V []) 0) + -1 * sum_to m (fun i => nth i w 0 * nth j (nth i V []) 0)); [ring|]. rewrite <- (sum_to_scal m (-1) (fun i => nth i w 0 * nth j (nth i V []) 0)), <- sum_to_plus. apply sum_to_ext. intros i _. unfold z. ring. }
    rewrite (sum_to_ext n _ (fun j => sum_to m (fun k => z k * (sum_to m (fun i => z i * nth j (nth i V []) 0) * nth j (nth k V []) 0)))).
    + rewrite sum_to_swap. apply sum_to_ext. intros k K. rewrite (sum_to_scal n (z k) (fun j => sum_to m (fun i => z i * nth j (nth i V []) 0) * nth j (nth k V []) 0)), PR by exact K. unfold z. ring.
    + intros j _. rewrite E. rewrite (sum_to_ext m (fun k => z k * (sum_to m (fun i => z i * nth j (nth i V []) 0) * nth j (nth k V []) 0)) (fun k => sum_to m (fun i => z i * nth j (nth i V []) 0) * (z k * nth j (nth k V []) 0))) by (intros; ring). rewrite (sum_to_scal m (sum_to m (fun i => z i * nth j (nth i V []) 0)) (fun k => z k * nth j (nth k V []) 0)). ring.
  - intros k K. now apply RD.
  - intros Q. apply (nth_ext v w 0 0); [now symmetry|]. intros k K. rewrite <- (RD v eq_refl k K), <- (RD w LW k K). apply sum_to_ext. intros j J. now rewrite (Q j J).
Qed.
(** To first order (exactly, for an affine target with jacobian A = U S Vh) amplitude i moves the target by s_i times column i of U *)
Theorem C122_response (n : nat) (a : list R) (V : list (list R)) (A U : nat -> nat -> R) (sg : nat -> R) (v : list R) (m r : nat) : orthonormal n V -> (length v <= r)%nat -> (r <= n)%nat ->
  (forall p j, (p < m)%nat -> (j < n)%nat -> A p j = sum_to r (fun i => U p i * sg i * nth j (nth i V []) 0)) ->
  forall p, (p < m)%nat -> sum_to n (fun j => A p j * (position a V v j - nth j a 0)) = sum_to (length v) (fun i => nth i v 0 * (sg i * U p i)).
Proof.
  intros O L RN HA p P. set (w := fun i => U p i * sg i). rewrite (sum_to_ext n _ (fun j => sum_to (length v) (fun k => nth k v 0 * (sum_to r (fun i => w i * nth j (nth i V []) 0) * nth j (nth k V []) 0)))).
  - rewrite sum_to_swap. apply sum_to_ext. intros k K. rewrite (sum_to_scal n (nth k v 0) (fun j => sum_to r (fun i => w i * nth j (nth i V []) 0) * nth j (nth k V []) 0)), (project n V w r k O) by lia. replace (k <? r)%nat with true by (symmetry; apply Nat.ltb_lt; lia). unfold w. ring.
  - intros j J. rewrite (HA p j P J). unfold position. fold w. rewrite (sum_to_ext (length v) (fun k => nth k v 0 * (sum_to r (fun i => w i * nth j (nth i V []) 0) * nth j (nth k V []) 0)) (fun k => sum_to r (fun i => w i * nth j (nth i V []) 0) * (nth k v 0 * nth j (nth k V []) 0))) by (intros; ring). rewrite (sum_to_scal (length v) (sum_to r (fun i => w i * nth j (nth i V []) 0)) (fun k => nth k v 0 * nth j (nth k V []) 0)). unfold w. ring.
Qed.
(** ** What goes wrong *)
(** Lowering nsv with orthonormal rows: the coils keep the displacement of the dropped dofs, so they are where the dofs say only if the dropped
    amplitudes were zero; the next assignment, even of the current values, then moves the coils *)
Theorem C122_lower_nsv_refuted (n : nat) (s : rcs) (k i : nat) : reachable n s -> free s = repeat true (nsv s) -> consistent n s -> orthonormal n (vh s) -> (k <= i < nsv s)%nat -> nth i (x s) 0 <> 0 ->
  let s' := fst (set_nsv s (Some k)) in cx s' = cx s /\ ~ consistent n s' /\ cx (fst (set_x s' (free_x s'))) <> cx s.
Proof.
  intros RE FR CO O K NZ. pose proof (reach_Inv n s RE) as I. pose proof (i_nsv n s I) as NS. pose proof (i_sh n s I) as (S1 & S2 & S3).
  destruct (C122_nsv n s k RE FR) as (_ & H). specialize (H ltac:(lia)). cbv zeta. destruct (set_nsv s (Some k)) as [s' ok] eqn:E. cbn [fst]. destruct H as (_ & H1 & H2 & H3 & H4 & H5 & H6). specialize (H6 CO).
  assert (NC : ~ consistent n s'). { intros Q. pose proof (proj1 H6 Q) as Q0. clear Q. rename Q0 into Q. apply NZ. pose proof (project n (vh s) (fun l => if (l <? k)%nat then 0 else nth l (x s) 0) (nsv s) i O ltac:(lia) ltac:(lia)) as PR. replace (i <? nsv s)%nat with true in PR by (symmetry; apply Nat.ltb_lt; lia). replace (i <? k)%nat with false in PR by (symmetry; apply Nat.ltb_ge; lia). rewrite <- PR. apply sum_0. intros j J.
    specialize (Q j J). replace (nsv s) with (k + (nsv s - k))%nat by lia. rewrite sum_to_add. rewrite (sum_0 k) by (intros l L; rewrite (proj2 (Nat.ltb_lt _ _) L); ring). rewrite (sum_to_ext (nsv s - k) _ (fun i0 => nth (k + i0) (x s) 0 * nth j (nth (k + i0) (vh s) []) 0)); [rewrite Q; ring|]. intros l L. replace (k + l <? k)%nat with false by (symmetry; apply Nat.ltb_ge; lia). reflexivity. }
  split; [exact H1|]. split; [exact NC|]. intros Q. apply NC. assert (I' : Inv n s') by (pose proof (nsv_Inv n s (Some k) I) as X; rewrite E in X; exact X).
  assert (CO' : consistent n (fst (set_x s' (free_x s')))). { unfold set_x. rewrite Nat.eqb_refl. cbn [negb]. rewrite (store_ok n s' _ I') by (rewrite put_free_length; apply I'). intros j J. cbn [fst cx x0 vh x]. now apply nth_position. }
  assert (SAME : x (fst (set_x s' (free_x s'))) = x s' /\ x0 (fst (set_x s' (free_x s'))) = x0 s' /\ vh (fst (set_x s' (free_x s'))) = vh s').
  { unfold set_x. rewrite Nat.eqb_refl. cbn [negb]. rewrite (store_ok n s' _ I') by (rewrite put_free_length; apply I'). cbn [fst x x0 vh]. split; [|split; reflexivity]. unfold free_x. clear. generalize (x s'). induction (free s') as [|b fr IH]; intros l; [reflexivity|]. destruct l as [|a l]; [destruct b; reflexivity|]. destruct b; cbn [combine filter snd map fst put_free]; now rewrite IH. }
  destruct SAME as (E1 & E2 & E3). intros j J. specialize (CO' j J). rewrite E1, E2, E3, Q, <- H1 in CO'. exact CO'.
Qed.
(** A fixed dof is dropped by the nsv setter: the free values move up and everything becomes free *)
Theorem C122_nsv_fixed_refuted (n : nat) (s : rcs) (k : nat) : reachable n s -> (k <= length (sd s))%nat -> let s' := fst (set_nsv s (Some k)) in
  x s' = firstn k (free_x s) ++ repeat 0 (k - length (free_x s)) /\ free s' = repeat true k /\ cx s' = cx s.
Proof. intros RE H. cbv zeta. unfold set_nsv. rewrite (proj2 (Nat.ltb_ge _ _) H). cbn [fst x free cx]. auto. Qed.
(** Without SVD matrices and with 0 < nsv < number of coil dofs the object is constructed, but every assignment raises, after having stored the
    values: the coils do not follow *)
Theorem C122_default_refuted (coil : list R) (k : nat) (v : list R) : (k < length coil)%nat -> length v = k ->
  exists s, new coil (Some k) None = Some s /\ nsv s = k /\ let (s', ok) := set_full s v in ok = false /\ x s' = v /\ cx s' = coil.
Proof.
  intros K L. unfold new. destruct (Nat.ltb_spec (length coil) k); [lia|]. eexists. split; [reflexivity|]. cbn [nsv]. split; [reflexivity|]. unfold set_full. cbn [x]. rewrite repeat_length, L, Nat.eqb_refl. cbn [negb]. unfold store, target. cbn [nsv x0 vh ncol cx]. rewrite L, Nat.eqb_refl. cbn [negb]. destruct (Nat.ltb_spec (length coil) k); [lia|].
  unfold vecmul, eye at 1. rewrite map_length, seq_length, app_length, repeat_length, L. destruct (Nat.eqb_spec (k + (length coil - k)) k); [lia|]. cbn [x cx]. auto.
Qed.
Theorem C122_default (coil : list R) (v : list R) : length v = length coil -> exists s, new coil None None = Some s /\ nsv s = length coil /\
  let (s', ok) := set_full s v in ok = true /\ x s' = v /\ forall j, (j < length coil)%nat -> nth j (cx s') 0 = nth j coil 0 + nth j v 0.
Proof.
  intros L. unfold new. destruct (Nat.ltb_spec (length coil) (length coil)); [lia|]. eexists. split; [reflexivity|]. cbn [nsv]. split; [reflexivity|]. set (s := RCS _ _ _ _ _ _ _ _ _).
  assert (I : Inv (length coil) s). { split; cbn [s cx x0 vh sd ncol nsv x free]; rewrite ?repeat_length; auto. unfold shaped, eye. rewrite map_length, seq_length, repeat_length. auto. }
  unfold set_full. rewrite (i_x _ s I). cbn [s nsv]. rewrite (proj2 (Nat.eqb_eq _ _) L). cbn [negb]. fold s. rewrite (store_ok _ s v I L). cbn [cx x]. split; [reflexivity|]. split; [reflexivity|]. intros j J. rewrite nth_position by exact J. unfold position. cbn [s x0 vh]. f_equal.
  rewrite (sum_to_ext (length v) _ (fun i => if (i =? j)%nat then nth i v 0 else 0)); [apply sum_to_single; lia|]. intros i Hi. unfold eye. rewrite (nth_indep _ [] ((fun i => map (fun j => if (i =? j)%nat then 1 else 0) (seq 0 (length coil))) 0%nat)) by (rewrite map_length, seq_length; lia). rewrite (map_nth (fun i => map (fun j => if (i =? j)%nat then 1 else 0) (seq 0 (length coil)))), seq_nth by lia. rewrite nth_position by exact J. cbn [Nat.add]. destruct (i =? j)%nat; ring.
Qed.
(** two coil dofs, a rotated basis: assignment, then dropping the second singular value leaves the coils behind *)
Example C122_ex : exists s0, new [1; 2] None (Some ([[1]], [3; 1], [[3 / 5; 4 / 5]; [- (4 / 5); 3 / 5]], 2%nat)) = Some s0 /\ orthonormal 2 (vh s0) /\
  let (s1, ok) := set_x s0 [5; 10] in ok = true /\ cx s1 = [-4; 12] /\ consistent 2 s1 /\ ~ consistent 2 (fst (set_nsv s1 (Some 1%nat))).
Proof.
  eexists. split; [reflexivity|]. set (s0 := RCS _ _ _ _ _ _ _ _ _).
  assert (RE : reachable 2 s0). { exists [1; 2], None, [[1]], [3; 1], [[3 / 5; 4 / 5]; [- (4 / 5); 3 / 5]], 2%nat, s0, []. repeat split; auto. }
  assert (OR : orthonormal 2 (vh s0)). { intros i k I K. destruct i as [|[|i]], k as [|[|k]]; try lia; cbn; lra. }
  split; [exact OR|]. assert (E : set_x s0 [5; 10] = (RCS (map (position (x0 s0) (vh s0) [5; 10]) (seq 0 2)) (x0 s0) (vh s0) (ncol s0) (um s0) (sd s0) (nsv s0) [5; 10] (free s0), true)) by (apply (store_ok 2 s0 [5; 10] (reach_Inv 2 s0 RE) eq_refl)).
  rewrite E. split; [reflexivity|]. split; [unfold position, sum_to; cbn [s0 cx x0 vh map seq length nth rsuml]; f_equal; [lra|f_equal; lra]|]. split; [intros j J; cbn [cx x0 vh x]; now apply nth_position|].
  set (s1 := RCS _ _ _ _ _ _ _ _ _). assert (RE1 : reachable 2 s1). { exists [1; 2], None, [[1]], [3; 1], [[3 / 5; 4 / 5]; [- (4 / 5); 3 / 5]], 2%nat, s0, [SetX [5; 10]]. split; [reflexivity|]. split; [repeat split; auto|]. split; [reflexivity|]. split; [constructor; [exact I|constructor]|]. change (run s0 [SetX [5; 10]]) with (fst (set_x s0 [5; 10])). now rewrite E. }
  apply (C122_lower_nsv_refuted 2 s1 1 1 RE1); try reflexivity; [intros j J; cbn [s1 cx x0 vh x]; now apply nth_position|exact OR|cbn; lia|cbn; lra].
Qed.
