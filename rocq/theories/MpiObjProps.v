(** C81, C82: objectives and optimizables distributed over MPI ranks. *)
From Coq Require Import Reals Lra List Lia Bool.
From Verif Require Import ListAux VecAux BSDeriv BSVjp PartitionModel PartitionProps MpiObjModel.
Import ListNotations.
Open Scope R_scope.

(** ** Tiling *)
Lemma tiles {A} (l : list A) size : (0 < size)%nat -> concat (map (fun r => split size r l) (seq 0 size)) = l.
Proof.
  intros P. set (n := length l). assert (G : forall k, (k <= size)%nat -> concat (map (fun r => split size r l) (seq 0 k)) = firstn (k * n / size) l).
  { induction k as [|k IH]; intros Hk; [now rewrite Nat.div_0_l by lia|]. rewrite seq_S, map_app, concat_app, IH by lia. cbn [Nat.add map concat]. rewrite app_nil_r. unfold split. rewrite bounds_eq by lia. fold n. rewrite Nat.add_1_r. set (a := (k * n / size)%nat). set (b := (S k * n / size)%nat). assert (AB : (a <= b)%nat) by (apply Nat.div_le_mono; lia).
    rewrite <- (firstn_skipn a (firstn b l)), firstn_firstn, Nat.min_l by lia. f_equal. now rewrite skipn_firstn_comm. }
  rewrite G by lia. rewrite (Nat.mul_comm size n), Nat.div_mul by lia. apply firstn_all.
Qed.
Lemma total_concat {A} (ranks : list (list A)) : total_n ranks = length (concat ranks).
Proof. unfold total_n. induction ranks as [|a l IH]; [reflexivity|]. cbn [map list_sum concat fold_right]. rewrite app_length. unfold list_sum in *. lia. Qed.

(** ** C81 *)
(** the value is the mean over all objectives of all ranks; splitting a list over any number of ranks gives the mean over the list *)
Theorem C81_value ranks : (mpi_J ranks = None <-> forall l, In l ranks -> l = []) /\ (forall x, mpi_J ranks = Some x -> x * INR (length (concat ranks)) = rsuml (concat ranks)) /\
  (forall size (l : list R), (0 < size)%nat -> l <> [] -> mpi_J (map (fun r => split size r l) (seq 0 size)) = Some (rsuml l / INR (length l))).
Proof.
  split; [|split].
  - unfold mpi_J. rewrite total_concat. destruct (length (concat ranks)) eqn:E.
    + split; [intros _|auto]. intros l Hl. destruct l as [|x l]; [reflexivity|]. exfalso. assert (I : In x (concat ranks)) by (apply in_concat; exists (x :: l); split; [exact Hl|now left]). destruct (concat ranks); [destruct I|discriminate].
    + split; [discriminate|]. intros H. exfalso. assert (Z : concat ranks = []) by (clear E; induction ranks as [|a r IH]; [reflexivity|]; cbn; rewrite (H a (or_introl eq_refl)), IH; [reflexivity|intros; apply H; now right]). rewrite Z in E. discriminate.
  - intros x. unfold mpi_J. rewrite total_concat. destruct (length (concat ranks)) as [|m]; [discriminate|]. intros H. apply (f_equal (fun o => match o with Some y => y | None => 0 end)) in H. cbv beta iota in H. rewrite <- H. field. apply not_0_INR. lia.
  - intros size l P NE. unfold mpi_J. rewrite total_concat, tiles by exact P. destruct (length l) eqn:E; [destruct l; [now destruct NE|discriminate]|]. reflexivity.
Qed.
(** with needs_splitting every rank has an objective exactly if there are at least as many objectives as ranks; otherwise dJ raises on some rank *)
Theorem C81_enough_objectives {A} (l : list A) size : (0 < size)%nat -> ((exists r, (r < size)%nat /\ split size r l = []) <-> (length l < size)%nat).
Proof.
  intros P. set (n := length l). assert (LB : forall r, (r < size)%nat -> (n / size <= length (split size r l) <= n / size + 1)%nat).
  { intros r Hr. destruct (C21_intervals_balanced_and_ordered size n P r Hr) as (a & b & E & (AB & BN) & B & _). unfold split. fold n. rewrite E. rewrite firstn_length, skipn_length. fold n. lia. }
  split.
  - intros (r & Hr & E). specialize (LB r Hr). rewrite E in LB. cbn in LB. destruct (Nat.lt_ge_cases n size) as [|G]; [auto|]. exfalso. assert (1 <= n / size)%nat by (apply Nat.div_le_lower_bound; lia). lia.
  - intros L. assert (S0 := tiles l size P). destruct (existsb (fun r => match split size r l with [] => true | _ => false end) (seq 0 size)) eqn:X.
    + apply existsb_exists in X. destruct X as (r & Hr & X). apply in_seq in Hr. exists r. split; [lia|]. now destruct (split size r l).
    + exfalso. assert (G : forall k a, (a + k <= size)%nat -> (k <= length (concat (map (fun r => split size r l) (seq a k))))%nat).
      { induction k as [|k IH]; intros a Ha; [lia|]. cbn [seq map concat]. rewrite app_length. specialize (IH (S a) ltac:(lia)). assert (NE : split size a l <> []). { intros E. assert (Y : existsb (fun r => match split size r l with [] => true | _ => false end) (seq 0 size) = true) by (apply existsb_exists; exists a; split; [apply in_seq; lia|now rewrite E]). congruence. } destruct (split size a l); [now destruct NE|]. cbn [length]. lia. }
      specialize (G size 0%nat ltac:(lia)). rewrite S0 in G. fold n in G. lia.
Qed.
(** the entry j of the derivative with respect to key k; 0 if absent *)
Definition dval (x : deriv) (k j : nat) : R := match find (fun kv => (fst kv =? k)%nat) x with Some kv => nth j (snd kv) 0 | None => 0 end.
(** a dictionary whose arrays have the lengths len *)
Definition wf (len : nat -> nat) (x : deriv) : Prop := NoDup (map fst x) /\ forall k v, In (k, v) x -> length v = len k.
Lemma nth_vplus a b j : length a = length b -> nth j (vmap2 Rplus a b) 0 = nth j a 0 + nth j b 0.
Proof. revert b j. induction a as [|x a IH]; intros [|y b] j L; try discriminate; [destruct j; cbn; ring|]. destruct j; [reflexivity|]. cbn [vmap2 nth]. apply IH. now injection L. Qed.
Lemma upd_keys k v x : map fst (upd k v x) = if existsb (fun k' => (k' =? k)%nat) (map fst x) then map fst x else map fst x ++ [k].
Proof. induction x as [|[k' w] x IH]; [reflexivity|]. cbn [upd map fst existsb]. destruct (k' =? k)%nat; [reflexivity|]. cbn [map fst orb]. rewrite IH. now destruct (existsb _ _). Qed.
Lemma upd_wf len k v x : wf len x -> length v = len k -> wf len (upd k v x).
Proof.
  intros (N & L) Lv. split.
  - rewrite upd_keys. destruct (existsb _ _) eqn:E; [exact N|]. apply NoDup_rev in N. rewrite <- (rev_involutive (map fst x ++ [k])), rev_app_distr. apply NoDup_rev. cbn [rev app]. constructor; [|exact N]. rewrite <- in_rev. intros I. assert (Y : existsb (fun k' => (k' =? k)%nat) (map fst x) = true) by (apply existsb_exists; exists k; split; [exact I|apply Nat.eqb_refl]). congruence.
  - clear N. induction x as [|[k' w] x IH]; intros a b I; cbn [upd] in I; [destruct I as [[= <- <-]|[]]; exact Lv|]. destruct (Nat.eqb_spec k' k) as [->|NE].
    + destruct I as [[= <- <-]|I]; [|apply L; now right]. rewrite vmap2_length, (L k w) by now left. lia.
    + destruct I as [[= <- <-]|I]; [apply L; now left|]. apply IH; [|exact I]. intros; apply L; now right.
Qed.
Lemma upd_val len k v x k' j : wf len x -> length v = len k -> dval (upd k v x) k' j = dval x k' j + (if (k =? k')%nat then nth j v 0 else 0).
Proof.
  intros (_ & L) Lv. unfold dval. induction x as [|[a w] x IH]; cbn [upd find fst snd].
  - destruct (k =? k')%nat; cbn [snd]; ring.
  - destruct (Nat.eqb_spec a k) as [->|NE]; cbn [find fst snd].
    + destruct (k =? k')%nat; cbn [snd]; [|ring]. apply nth_vplus. rewrite (L k w) by now left. lia.
    + destruct (Nat.eqb_spec a k') as [->|NE']; cbn [snd]; [replace (k =? k')%nat with false by lia; ring|]. apply IH. intros; apply L; now right.
Qed.
Lemma dval_head k v y k' j : ~ In k (map fst y) -> dval ((k, v) :: y) k' j = (if (k =? k')%nat then nth j v 0 else 0) + dval y k' j.
Proof.
  intros N. unfold dval. cbn [find fst snd]. destruct (Nat.eqb_spec k k') as [->|NE]; [|ring]. cbn [snd]. destruct (find (fun kv => (fst kv =? k')%nat) y) as [[a w]|] eqn:F; [|ring]. exfalso. apply find_some in F. destruct F as (I & E). cbn in E. apply N. apply in_map_iff. exists (a, w). split; [cbn; lia|exact I].
Qed.
Lemma dadd_spec len y : forall x, wf len x -> wf len y -> wf len (dadd x y) /\ forall k j, dval (dadd x y) k j = dval x k j + dval y k j.
Proof.
  induction y as [|[k v] y IH]; intros x Wx Wy; [split; [exact Wx|intros; unfold dval at 3; cbn; ring]|]. destruct Wy as (N & L). cbn [map fst] in N. inversion N as [|? ? NI N']; subst. assert (Lv : length v = len k) by (apply L; now left).
  unfold dadd. cbn [fold_left fst snd]. fold (dadd (upd k v x) y). assert (Wy' : wf len y) by (split; [exact N'|intros; apply L; now right]).
  destruct (IH (upd k v x) (upd_wf len k v x Wx Lv) Wy') as (W & E). split; [exact W|]. intros k' j. rewrite E, (upd_val len) by assumption. rewrite dval_head by exact NI. ring.
Qed.
Lemma dsum_spec len l : (forall d, In d l -> wf len d) -> wf len (dsum l) /\ forall k j, dval (dsum l) k j = rsuml (map (fun d => dval d k j) l).
Proof.
  destruct l as [|d l]; [intros _; split; [split; [constructor|intros k v []]|reflexivity]|]. cbn [dsum map rsuml]. intros H.
  assert (G : forall x, wf len x -> (forall d, In d l -> wf len d) -> wf len (fold_left dadd l x) /\ forall k j, dval (fold_left dadd l x) k j = dval x k j + rsuml (map (fun d => dval d k j) l)).
  { clear. induction l as [|d l IH]; intros x Wx H; [split; [exact Wx|intros; cbn; ring]|]. cbn [fold_left map rsuml]. destruct (dadd_spec len d x Wx (H d (or_introl eq_refl))) as (W & E). destruct (IH _ W (fun d' I => H d' (or_intror I))) as (W' & E'). split; [exact W'|]. intros. rewrite E', E. ring. }
  apply G; [apply H; now left|intros; apply H; now right].
Qed.
Lemma asum_spec n l : (forall v, In v l -> length v = n) -> l <> [] -> length (asum l) = n /\ forall j, nth j (asum l) 0 = rsuml (map (fun v => nth j v 0) l).
Proof.
  destruct l as [|a l]; [intros _ H; now destruct H|]. intros H _. cbn [asum map rsuml]. assert (G : forall x, length x = n -> (forall v, In v l -> length v = n) -> length (fold_left (vmap2 Rplus) l x) = n /\ forall j, nth j (fold_left (vmap2 Rplus) l x) 0 = nth j x 0 + rsuml (map (fun v => nth j v 0) l)).
  { clear. induction l as [|b l IH]; intros x Lx H; [split; [exact Lx|intros; cbn; ring]|]. cbn [fold_left map rsuml]. assert (Lb : length b = n) by (apply H; now left). destruct (IH (vmap2 Rplus x b)) as (W & E); [rewrite vmap2_length; lia|intros; apply H; now right|]. split; [exact W|]. intros j. rewrite E, nth_vplus by lia. ring. }
  apply G; [apply H; now left|intros; apply H; now right].
Qed.
Lemma dval_nth len (x : deriv) i k j : wf len x -> (i < length x)%nat -> fst (nth i x (O, [])) = k -> dval x k j = nth j (snd (nth i x (O, []))) 0.
Proof.
  intros (N & _). revert i. induction x as [|[a w] x IH]; intros i Hi E; [cbn in Hi; lia|]. cbn [map fst] in N. apply NoDup_cons_iff in N. destruct N as (NI & N'). rewrite <- E. unfold dval. cbn [find fst]. destruct i as [|i].
  - cbn [nth fst snd] in *. now rewrite Nat.eqb_refl.
  - cbn [nth] in E |- *. assert (NE : (a =? fst (nth i x (0%nat, [])))%nat = false). { destruct (Nat.eqb_spec a (fst (nth i x (0%nat, [])))) as [Q|]; [|reflexivity]. exfalso. apply NI. rewrite Q. apply in_map. apply nth_In. cbn in Hi. lia. } rewrite NE, E. apply (IH N' i); [cbn in Hi; lia|exact E].
Qed.
(** if the derivatives have the same keys in the same order on every rank, every rank gets the mean of the derivatives of all objectives *)
Theorem C81_derivative len (ranks : list (list deriv)) ks : (forall l d, In l ranks -> In d l -> wf len d) -> (forall l, In l ranks -> l <> [] /\ map fst (dsum l) = ks) -> forall r, (r < length ranks)%nat ->
  exists d, mpi_dJ ranks r = Returns d /\ map fst d = ks /\ forall k j, dval d k j = 1 / INR (length (concat ranks)) * rsuml (map (fun d => dval d k j) (concat ranks)).
Proof.
  intros W K r Hr. set (mine := nth r ranks []). assert (IM : In mine ranks) by (apply nth_In; exact Hr). destruct (K mine IM) as (NE & KM).
  assert (WL : forall l, In l ranks -> wf len (dsum l)) by (intros l Hl; apply dsum_spec; intros; now apply (W l)).
  assert (LK : forall l, In l ranks -> length (dsum l) = length ks) by (intros l Hl; destruct (K l Hl) as (_ & E); rewrite <- E; now rewrite map_length).
  set (S0 := sum_across (map dsum ranks) (dsum mine)). exists (dscale (1 / INR (total_n ranks)) S0). split; [|].
  { unfold mpi_dJ. fold mine. destruct mine as [|d0 m0] eqn:EM; [now destruct NE|]. rewrite <- EM in *. replace (forallb _ _) with true; [subst S0; now rewrite EM|]. symmetry. apply forallb_forall. intros l Hl. apply in_map_iff in Hl. destruct Hl as (l' & <- & Hl). rewrite !LK by assumption. lia. }
  assert (KS : map fst S0 = ks). { unfold S0, sum_across. rewrite map_map. cbn [fst]. rewrite KM, LK by exact IM. generalize (seq 0 (length ks)) (seq_length (length ks) 0). intros s Hs. clear - Hs. revert s Hs. induction ks as [|k ks IH]; intros [|a s] Hs; try discriminate; [reflexivity|]. cbn [combine map snd]. f_equal. apply IH. now injection Hs. }
  assert (ST : forall (f : nat * nat -> list R) i, (i < length ks)%nat -> nth i (map (fun jk => (snd jk, f jk)) (combine (seq 0 (length ks)) ks)) (O, []) = (nth i ks O, f (i, nth i ks O))).
  { intros f i Hi. rewrite (nth_indep _ (O, []) ((fun jk => (snd jk, f jk)) (O, O))) by (rewrite map_length, combine_length, seq_length; lia). rewrite (map_nth (fun jk => (snd jk, f jk))), combine_nth by now rewrite seq_length. rewrite seq_nth by exact Hi. reflexivity. }
  split. { unfold dscale. rewrite map_map. cbn [fst]. exact KS. }
  assert (ND : NoDup ks) by (rewrite <- KM; apply WL; exact IM).
  assert (RN : map dsum ranks <> []) by (destruct ranks; [cbn in Hr; lia|discriminate]).
  assert (EL : forall i l, (i < length ks)%nat -> In l ranks -> fst (nth i (dsum l) (O, [])) = nth i ks O). { intros i l Hi Hl. destruct (K l Hl) as (_ & <-). symmetry. apply (map_nth fst (dsum l) (O, [])). }
  assert (LL : forall i v, (i < length ks)%nat -> In v (map (fun l => snd (nth i l (O, []))) (map dsum ranks)) -> length v = len (nth i ks O)).
  { intros i v Hi Hv. rewrite map_map in Hv. apply in_map_iff in Hv. destruct Hv as (l & <- & Hl). rewrite <- (EL i l Hi Hl). apply (WL l Hl). rewrite <- surjective_pairing. apply nth_In. now rewrite LK. }
  assert (WS : wf len S0).
  { split; [rewrite KS; exact ND|]. intros k v I. apply (In_nth _ _ (O, [])) in I. destruct I as (i & Hi & E). assert (Li : (i < length ks)%nat) by (rewrite <- KS, map_length; exact Hi). unfold S0, sum_across in E. rewrite KM, LK in E by exact IM. rewrite ST in E by exact Li. injection E as <- <-. cbn [fst].
    apply asum_spec; [intros v Hv; now apply LL|]. intros Q. apply map_eq_nil in Q. now apply RN. }
  intros k j. rewrite total_concat.
  assert (VS : dval (dscale (1 / INR (length (concat ranks))) S0) k j = 1 / INR (length (concat ranks)) * dval S0 k j).
  { unfold dval, dscale. clear. induction S0 as [|[a w] x IH]; [cbn; ring|]. cbn [map find fst snd]. destruct (a =? k)%nat; [|exact IH]. cbn [snd]. clear. revert j. induction w as [|y w IH]; intros [|j]; cbn; try ring. apply IH. }
  rewrite VS. f_equal.
  assert (EV : dval S0 k j = rsuml (map (fun l => dval (dsum l) k j) ranks)).
  { destruct (in_dec Nat.eq_dec k ks) as [I|NI].
    - apply (In_nth _ _ O) in I. destruct I as (i & Hi & E). rewrite (dval_nth len S0 i k j WS); [|rewrite <- (map_length fst), KS; exact Hi|unfold S0, sum_across; rewrite KM, LK, ST by assumption; exact E].
      unfold S0, sum_across. rewrite KM, LK, ST by assumption. cbn [snd fst]. rewrite (proj2 (asum_spec (len (nth i ks O)) _ (fun v Hv => LL i v Hi Hv) ltac:(intros Q; apply map_eq_nil in Q; now apply RN))). rewrite !map_map. apply rsuml_map_ext. intros l Hl. symmetry. apply (dval_nth len); [now apply WL|now rewrite LK|]. now rewrite EL.
    - assert (Z : forall x, map fst x = ks -> dval x k j = 0). { intros x Ex. unfold dval. destruct (find _ x) as [[a w]|] eqn:F; [|reflexivity]. exfalso. apply find_some in F. destruct F as (I & Q). cbn in Q. apply NI. rewrite <- Ex. apply in_map_iff. exists (a, w). split; [cbn; lia|exact I]. }
      rewrite Z by exact KS. symmetry. apply rsuml_map_zero. intros l Hl. apply Z. now apply K. }
  rewrite EV. clear - W. induction ranks as [|l ranks IH]; [reflexivity|]. cbn [map rsuml concat]. rewrite map_app, rsuml_app, <- IH by (intros l' d' H1 H2; apply (W l' d'); [now right|exact H2]). f_equal. apply (dsum_spec len). intros d Hd. apply (W l d); [now left|exact Hd].
Qed.
(** J and dJ belong together: if the derivatives of the objectives are their derivatives along a motion of the dofs, the mean has the mean derivative *)
Theorem C81_gradient (objs : list ((R -> R) * deriv)) (dir : nat -> nat -> R) keys : objs <> [] ->
  (forall o, In o objs -> D (fst o) 0 (rsuml (map (fun kj => dval (snd o) (fst kj) (snd kj) * dir (fst kj) (snd kj)) keys))) ->
  D (fun t => rsuml (map (fun o => fst o t) objs) / INR (length objs)) 0 (rsuml (map (fun kj => 1 / INR (length objs) * rsuml (map (fun o => dval (snd o) (fst kj) (snd kj)) objs) * dir (fst kj) (snd kj)) keys)).
Proof.
  intros NE H. assert (DS := D_sum objs (fun o t => fst o t) (fun o => rsuml (map (fun kj => dval (snd o) (fst kj) (snd kj) * dir (fst kj) (snd kj)) keys)) 0 H). cbv beta in DS.
  eapply D_ext; [|eapply D_val; [|apply (D_mul (fun _ => 1 / INR (length objs)) _ _ _ _ (D_const _ _) DS)]]; [intros s; cbv beta; unfold Rdiv; ring|]. cbv beta. rewrite Rmult_0_l, Rplus_0_l, rsuml_swap, <- rsuml_map_scale. apply rsuml_map_ext. intros kj _. rewrite Rmult_assoc. f_equal. rewrite Rmult_comm, <- rsuml_map_scale. apply rsuml_map_ext. intros; ring.
Qed.
(** otherwise: a rank without objectives raises and the others wait for ever; keys in a different order are mixed up *)
Theorem C81_failures :
  (forall ranks r d l, nth r ranks [] = d :: l -> In [] ranks -> dsum (d :: l) <> [] -> mpi_dJ ranks r = Hangs) /\ (forall ranks r, nth r ranks [] = [] -> mpi_dJ ranks r = Raises) /\
  (exists d0 d1 : deriv, mpi_dJ [[d0]; [d1]] 0 = Returns [(0%nat, [(1 / INR 2) * (1 + 20)]); (1%nat, [(1 / INR 2) * (2 + 10)])] /\ dval d0 0 0 + dval d1 0 0 = 1 + 10 /\ dval d0 1 0 + dval d1 1 0 = 2 + 20).
Proof.
  split; [|split].
  - intros ranks r d l E I NE. unfold mpi_dJ. rewrite E. destruct (forallb _ _) eqn:F; [|reflexivity]. exfalso. rewrite forallb_forall in F. specialize (F [] ltac:(apply in_map_iff; exists []; split; [reflexivity|exact I])). cbn [length] in F. destruct (dsum (d :: l)); [now destruct NE|discriminate].
  - intros ranks r E. unfold mpi_dJ. now rewrite E.
  - exists [(0%nat, [1]); (1%nat, [2])], [(1%nat, [20]); (0%nat, [10])]. split; [reflexivity|]. split; reflexivity.
Qed.
Example C81_case : wf (fun _ => 1%nat) [(0%nat, [1]); (1%nat, [2])] /\ mpi_J [[1; 2]; [6]] = Some 3 /\ split 2 1 [1; 2; 6] = [2; 6].
Proof.
  split; [|split; [unfold mpi_J; cbn; f_equal; field|reflexivity]]. split; [repeat constructor; cbn; intuition discriminate|]. intros k v [[= <- <-]|[[= <- <-]|[]]]; reflexivity.
Qed.

(** ** C82 *)
Section C82.
Variable V : Type.
Variables (size n : nat).
Hypothesis P : (0 < size)%nat.
(** the rank that owns optimizable i *)
Definition owner (i r : nat) : Prop := (r < size)%nat /\ runs_on size n r i.
Lemma global_split (v : nat -> nat -> V) : forall k, (k <= size)%nat -> length (concat (map (local_vals V size n v) (seq 0 k))) = (k * n / size)%nat.
Proof using P.
  induction k as [|k IH]; intros Hk; [now rewrite Nat.div_0_l by lia|]. rewrite seq_S, map_app, concat_app, app_length, IH by lia. cbn [Nat.add map concat]. rewrite app_nil_r. unfold local_vals. rewrite bounds_eq by lia. rewrite map_length, seq_length, Nat.add_1_r. assert ((k * n / size <= S k * n / size)%nat) by (apply Nat.div_le_mono; lia). lia.
Qed.
Lemma global_nth (v : nat -> nat -> V) i r d : owner i r -> nth i (global_vals V size n v) d = v r i.
Proof using P.
  intros (Hr & a & b & E & L). rewrite bounds_eq in E by lia. injection E as <- <-. unfold global_vals. replace size with (r + (1 + (size - r - 1)))%nat at 2 by lia. rewrite !seq_app, !map_app, !concat_app. rewrite app_nth2 by (rewrite global_split; lia). rewrite global_split by lia. cbn [Nat.add seq map concat]. rewrite app_nil_r. unfold local_vals at 1. rewrite bounds_eq by lia. rewrite app_nth1 by (rewrite map_length, seq_length; lia).
  rewrite (nth_indep _ d (v r O)) by (rewrite map_length, seq_length; lia). rewrite (map_nth (v r)). rewrite seq_nth by lia. f_equal. lia.
Qed.
Lemma local_owner r i : (r < size)%nat -> (local size n r i = true <-> owner i r).
Proof using P.
  intros Hr. unfold local, owner, runs_on. rewrite bounds_eq by lia. split.
  - intros H. split; [exact Hr|]. eexists _, _. split; [reflexivity|]. lia.
  - intros (_ & a & b & [= <- <-] & L). lia.
Qed.
(** dofs have changed since the last access, or there has been no access since the construction *)
Definition pending (l : list (mop V)) : Prop := (exists l1 l2, l = l1 ++ Bell V :: l2 /\ ~ In (Access V) l2) \/ ~ In (Access V) l.
Lemma need_kept l : ~ In (Access V) l -> forall s, need V s = true -> need V (mrun V size n l s) = true.
Proof using.
  induction l as [|o l IH]; intros NI s N; [exact N|]. cbn [mrun fold_left]. fold (mrun V size n l (mstep V size n s o)). apply IH; [intros I; apply NI; now right|]. destruct o; [exact N|reflexivity|]. exfalso. apply NI. now left.
Qed.
(** an access after a change of dofs: every rank sees the value of the owning rank, for every optimizable *)
Theorem C82_access l s0 r i : (i < n)%nat -> (r < size)%nat -> need V s0 = true -> pending l -> let s := mrun V size n l s0 in exists ow, owner i ow /\ vals V (mrun V size n (l ++ [Access V]) s0) r i = vals V s ow i.
Proof using P.
  intros Hi Hr N0 Q s. assert (N : need V s = true).
  { destruct Q as [(l1 & l2 & E & NI)|NI]; [|now apply need_kept]. unfold s. rewrite E. unfold mrun. rewrite fold_left_app. cbn [fold_left mstep]. now apply need_kept. }
  destruct (C21_every_index_on_exactly_one_process size n P i Hi) as (ow & Ho & Hrun & U). exists ow. split; [split; assumption|]. unfold mrun. rewrite fold_left_app. cbn [fold_left mstep]. fold (mrun V size n l s0). fold s. unfold communicate. rewrite N. cbn [vals]. destruct (local size n r i) eqn:E.
  - apply local_owner in E; [|exact Hr]. destruct E as (_ & E). now rewrite (U r Hr E).
  - now rewrite (global_nth _ i ow) by (split; assumption).
Qed.
(** an access without a change of dofs since the previous access changes nothing: attributes set in between stay local *)
Theorem C82_no_bell l m s0 : (forall o, In o m -> match o with SetAttr _ _ _ _ => True | _ => False end) -> mrun V size n (l ++ Access V :: m ++ [Access V]) s0 = mrun V size n (l ++ Access V :: m) s0.
Proof using P.
  intros H. unfold mrun. rewrite !fold_left_app. cbn [fold_left]. rewrite fold_left_app. cbn [fold_left mstep]. set (s := fold_left (mstep V size n) l s0).
  assert (Z : need V (fold_left (mstep V size n) m (communicate V size n s)) = false).
  { assert (Z0 : need V (communicate V size n s) = false) by (unfold communicate; destruct (need V s) eqn:E; [reflexivity|exact E]). revert Z0. generalize (communicate V size n s). clear s. induction m as [|o m IH]; intros s Z0; [exact Z0|]. cbn [fold_left]. apply IH; [intros; apply H; now right|]. specialize (H o (or_introl eq_refl)). destruct o; try contradiction. exact Z0. }
  change (communicate V size n (fold_left (mstep V size n) m (communicate V size n s)) = fold_left (mstep V size n) m (communicate V size n s)). unfold communicate at 1. now rewrite Z.
Qed.
(** an access never changes what the owner itself holds *)
Theorem C82_owner_keeps l s0 r i : owner i r -> vals V (mrun V size n (l ++ [Access V]) s0) r i = vals V (mrun V size n l s0) r i.
Proof using P.
  intros O. unfold mrun. rewrite fold_left_app. cbn [fold_left mstep]. unfold communicate. destruct (need V _); [|reflexivity]. cbn [vals]. assert (L : local size n r i = true) by (apply local_owner; [apply O|exact O]). now rewrite L.
Qed.
End C82.
Example C82_case : let s0 := MS nat (fun r i => 10 * r + i)%nat true in map (fun r => map (vals nat (mrun nat 2 3 [Access nat] s0) r) [0; 1; 2]%nat) [0; 1]%nat = [[0; 11; 12]; [0; 11; 12]]%nat.
Proof. reflexivity. Qed.
