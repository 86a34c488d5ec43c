(** The caches of CacheModel.v instantiated with the C++ curve classes: curve.h:149-217, curve.cpp:40-58,
    curvexyzfourier.h:81-93, curverzfourier.h:107-119, curveplanarfourier.h:96-107.
    Keys: 0-3 gamma, gammadash, gammadashdash, gammadashdashdash; 4-7 their d..._by_dcoeff; 8 incremental_arclength;
    9 dincremental_arclength_by_dcoeff.  kappa, torsion and their derivatives (curve.py:186-242) follow the pattern of 8 and 9
    and are not in the table. *)
From Coq Require Import List Arith Bool Lia Reals Lra.
From Verif Require Import ListAux VecAux Vec3 CurveModel PlanarModel CurveDiff CacheModel CacheProps.
Import ListNotations.
Open Scope R_scope.

(** * Model *)
Section Table.
Variable St : Type.
(** rows of the four position arrays and lists of columns of the four derivatives, as functions of the coefficients and of t *)
Variables (g : nat -> St -> R -> vec3) (dg : nat -> St -> R -> list vec3).
Variables (quadpoints : list R) (num_dofs : nat).
Definition nquad := length quadpoints.
Definition row (v : vec3) : arr := [Some (vx v); Some (vy v); Some (vz v)].
Definition pos_array (i : nat) (s : St) : arr := flat_map (fun t => row (g i s t)) quadpoints.
(** data(k, i, c) in row-major order *)
Definition der_array (i : nat) (s : St) : arr :=
  flat_map (fun t => map (fun v => Some (vx v)) (dg i s t) ++ map (fun v => Some (vy v)) (dg i s t) ++ map (fun v => Some (vz v)) (dg i s t)) quadpoints.
Definition omap2 (f : R -> R -> option R) (a b : option R) : option R := match a, b with Some x, Some y => f x y | _, _ => None end.
Definition oplus := omap2 (fun x y => Some (x + y)).
Definition omult := omap2 (fun x y => Some (x * y)).
(** 1/0 is inf *)
Definition oinv (a : option R) : option R := match a with Some x => if Req_EM_T x 0 then None else Some (1 / x) | None => None end.
Definition osqrt (a : option R) : option R := match a with Some x => Some (sqrt x) | None => None end.
Definition el (a : arr) (k : nat) : option R := nth k a None.
(** curve.cpp:40-46 *)
Definition arclength_of (d : arr) : arr :=
  map (fun k => osqrt (oplus (oplus (omult (el d (3 * k)%nat) (el d (3 * k)%nat)) (omult (el d (3 * k + 1)%nat) (el d (3 * k + 1)%nat))) (omult (el d (3 * k + 2)%nat) (el d (3 * k + 2)%nat)))) (seq 0 nquad).
(** curve.cpp:48-58 *)
Definition darclength_of (d dd l : arr) : arr :=
  flat_map (fun k => map (fun c => let e i := el dd (3 * k * num_dofs + i * num_dofs + c)%nat in
    omult (oinv (el l k)) (oplus (oplus (omult (el d (3 * k)%nat) (e 0%nat)) (omult (el d (3 * k + 1)%nat) (e 1%nat))) (omult (el d (3 * k + 2)%nat) (e 2%nat))))
    (seq 0 num_dofs)) (seq 0 nquad).
Definition curve_table (k : key) : quantity St :=
  if (k <? 4)%nat then Q St false true (fun _ => [nquad; 3%nat]) (fun s => Done (pos_array k s))
  else if (k <? 8)%nat then Q St true false (fun _ => [nquad; 3%nat; num_dofs]) (fun s => Done (der_array (k - 4) s))
  else if (k =? 8)%nat then Q St false false (fun _ => [nquad]) (fun _ => Ask 1%nat (fun d => Done (arclength_of d)))
  else Q St false false (fun _ => [nquad; num_dofs]) (fun _ => Ask 1%nat (fun d => Ask 5%nat (fun dd => Ask 8%nat (fun l => Done (darclength_of d dd l))))).
End Table.
Definition xyz_g (order i : nat) (d : table) (t : R) : vec3 :=
  match i with 0 => xyz_gamma order d t | 1 => xyz_gammadash order d t | 2 => xyz_gammadashdash order d t | _ => xyz_gammadashdashdash order d t end%nat.
Definition xyz_dg (order i : nat) (_ : table) (t : R) : list vec3 := map
  (match i with 0 => xyz_dgamma order t | 1 => xyz_dgammadash order t | 2 => xyz_dgammadashdash order t | _ => xyz_dgammadashdashdash order t end%nat) (seq 0 (xyz_num_dofs order)).
Definition xyz_table (order : nat) (q : list R) := curve_table table (xyz_g order) (xyz_dg order) q (xyz_num_dofs order).
Definition rz_g (order nfp : nat) (sym : bool) (i : nat) (a : rz_arrays) (t : R) : vec3 :=
  match i with 0 => rz_gamma order nfp sym a t | 1 => rz_gammadash order nfp sym a t | 2 => rz_gammadashdash order nfp sym a t | _ => rz_gammadashdashdash order nfp sym a t end%nat.
Definition rz_dg (order nfp : nat) (sym : bool) (i : nat) (_ : rz_arrays) (t : R) : list vec3 :=
  match i with 0 => rz_dgamma order nfp sym t | 1 => rz_dgammadash order nfp sym t | 2 => rz_dgammadashdash order nfp sym t | _ => rz_dgammadashdashdash order nfp sym t end%nat.
Definition rz_table (order nfp : nat) (sym : bool) (q : list R) := curve_table rz_arrays (rz_g order nfp sym) (rz_dg order nfp sym) q (rz_num_dofs order sym).
Definition pl_g (order i : nat) (p : planar) (t : R) : vec3 :=
  match i with 0 => pl_gamma order p t | 1 => pl_gammadash order p t | 2 => pl_gammadashdash order p t | _ => pl_gammadashdashdash order p t end%nat.
Definition pl_dg (order i : nat) (p : planar) (t : R) : list vec3 :=
  match i with 0 => pl_dgamma order p t | 1 => pl_dgammadash order p t | 2 => pl_dgammadashdash order p t | _ => pl_dgammadashdashdash order p t end%nat.
Definition pl_table (order : nat) (q : list R) := curve_table planar (pl_g order) (pl_dg order) q (pl_num_dofs order).

(** * Theorems *)
Definition crank (k : key) : nat := if (k <? 8)%nat then 0 else if (k =? 8)%nat then 1 else 2.
Lemma crank_below k : (crank k < 3)%nat. Proof. unfold crank. destruct (k <? 8)%nat, (k =? 8)%nat; lia. Qed.
Section Generic.
Variable St : Type.
Variables (g : nat -> St -> R -> vec3) (dg : nat -> St -> R -> list vec3) (q : list R) (n : nat).
Notation tab := (curve_table St g dg q n).
Lemma table_acyclic k s : asks_below crank (crank k) (body (tab k) s).
Proof.
  unfold curve_table. destruct (k <? 4)%nat eqn:A; [constructor|]. destruct (k <? 8)%nat eqn:B; [constructor|]. unfold crank. rewrite B.
  destruct (k =? 8)%nat; cbn; repeat (constructor; intros); auto.
Qed.
Lemma table_dims k s s' : dims (tab k) s = dims (tab k) s'.
Proof. unfold curve_table. destruct (k <? 4)%nat, (k <? 8)%nat, (k =? 8)%nat; reflexivity. Qed.
Lemma value3 k s : value St tab 3 s k = denote (value St tab 2 s) (body (tab k) s). Proof. reflexivity. Qed.
Lemma tab_pos k : (k < 4)%nat -> tab k = Q St false true (fun _ => [nquad q; 3%nat]) (fun s => Done (pos_array St g q k s)).
Proof. intros H. apply Nat.ltb_lt in H. unfold curve_table. now rewrite H. Qed.
Lemma tab_acc k : accumulates (tab k) = true -> (k < 4)%nat.
Proof. unfold curve_table. destruct (k <? 4)%nat eqn:A; [intros _; now apply Nat.ltb_lt|destruct (k <? 8)%nat, (k =? 8)%nat; discriminate]. Qed.
Lemma tab_per k : persistent (tab k) = true -> tab k = Q St true false (fun _ => [nquad q; 3%nat; n]) (fun s => Done (der_array St dg q (k - 4) s)).
Proof. unfold curve_table. destruct (k <? 4)%nat; [discriminate|]. destruct (k <? 8)%nat; [reflexivity|]. destruct (k =? 8)%nat; discriminate. Qed.
Lemma table_numbers k s : accumulates (tab k) = true -> finite (value St tab 3 s k).
Proof.
  intros A. rewrite value3, tab_pos by now apply tab_acc. intros x H. cbn [denote body] in H. unfold pos_array in H. apply in_flat_map in H.
  destruct H as (t & _ & H). unfold row in H. cbn in H. decompose [or] H; subst; try discriminate; contradiction.
Qed.
(** derivatives that do not depend on the coefficients: every answer of every history is the one computed from the current coefficients *)
Theorem linear_curves_are_fresh s ops : (forall i a b t, dg i a t = dg i b t) -> no_writes St ops ->
  exists o, history St tab 3 ops (fresh St s) = Some (ideal St tab 3 s ops, o).
Proof.
  intros L NW. apply (C72_every_query_is_fresh St tab crank table_acyclic (fun _ => True) 3 crank_below); auto; intros.
  - apply table_dims.
  - rewrite !value3, tab_per by assumption. cbn [denote body]. unfold der_array. apply flat_map_ext. intros t. now rewrite (L (k - 4)%nat s0 s').
  - now apply table_numbers.
Qed.
End Generic.
(** the position arrays and the arclength are fresh for every curve, as long as nothing else is asked for *)
Definition positional (St : Type) (ops : list (op St)) : Prop := forall k, In (OQuery k) ops -> (k < 4 \/ k = 8)%nat.
Lemma same_tables St g dg dg' q n k : (k < 4 \/ k = 8)%nat -> curve_table St g dg q n k = curve_table St g dg' q n k.
Proof. unfold curve_table. intros [H| ->]; [apply Nat.ltb_lt in H; now rewrite H|reflexivity]. Qed.
Lemma same_queries St g dg dg' q n fuel : forall k o, (k < 4 \/ k = 8)%nat -> query St (curve_table St g dg q n) fuel k o = query St (curve_table St g dg' q n) fuel k o.
Proof.
  induction fuel as [|fuel IH]; intros k o K; [reflexivity|]. cbn [query]. unfold map_of, put. rewrite (same_tables St g dg dg' q n k K).
  destruct K as [K|K]; [|subst k].
  - rewrite !tab_pos by assumption. reflexivity.
  - change (body (curve_table St g dg' q n 8%nat) (members o)) with (Ask 1%nat (fun d => Done (arclength_of q d))). cbn [run]. rewrite IH by (left; lia). reflexivity.
Qed.
Theorem C72_positions_are_always_fresh St g dg q n s ops : positional St ops -> no_writes St ops ->
  exists o, history St (curve_table St g dg q n) 3 ops (fresh St s) = Some (ideal St (curve_table St g dg q n) 3 s ops, o).
Proof.
  intros P NW. destruct (linear_curves_are_fresh St g (fun _ _ _ => []) q n s ops) as (o & H); [reflexivity|exact NW|]. exists o.
  assert (A : forall ops o, positional St ops -> no_writes St ops -> history St (curve_table St g dg q n) 3 ops o = history St (curve_table St g (fun _ _ _ => []) q n) 3 ops o).
  { clear. induction ops as [|a ops IH]; intros o P NW; [reflexivity|]. assert (P' : positional St ops) by (intros k I; apply P; now right). assert (NW' : no_writes St ops) by (intros i c X; apply (NW i c); now right).
    destruct a as [s|k|k b]; cbn [history]; [now apply IH| |exfalso; apply (NW k b); now left]. rewrite (same_queries St g dg (fun _ _ _ => []) q n 3 k o) by (apply P; now left). destruct (query _ _ _ _ _) as [[w ow]|]; [|reflexivity]. now rewrite IH. }
  rewrite A by assumption. rewrite H. do 2 f_equal. revert s H P. clear -NW. intros s _ P. revert s. induction ops as [|a ops IH]; intros s; [reflexivity|].
  assert (P' : positional St ops) by (intros k I; apply P; now right). assert (NW' : no_writes St ops) by (intros i c X; apply (NW i c); now right).
  destruct a as [s'|k|k b]; cbn [ideal]; [now apply IH| |now apply IH]. rewrite (IH NW' P'). f_equal. destruct (P k ltac:(now left)) as [K|K].
  - rewrite !value3, !tab_pos by assumption. reflexivity.
  - subst k. reflexivity.
Qed.
Theorem C72_curvexyzfourier_is_fresh order q d ops : no_writes table ops ->
  exists o, history table (xyz_table order q) 3 ops (fresh table d) = Some (ideal table (xyz_table order q) 3 d ops, o).
Proof. intros NW. now apply linear_curves_are_fresh. Qed.
Theorem C72_curverzfourier_is_fresh order nfp sym q a ops : no_writes rz_arrays ops ->
  exists o, history rz_arrays (rz_table order nfp sym q) 3 ops (fresh rz_arrays a) = Some (ideal rz_arrays (rz_table order nfp sym q) 3 a ops, o).
Proof. intros NW. now apply linear_curves_are_fresh. Qed.
(** what the ideal answers are: the arrays of CurveModel.v and, for the arclength and its derivative, the formulas of CurveDiff.v (C71) row by row *)
Lemma el_pos St (g : nat -> St -> R -> vec3) q i s k t0 : (k < length q)%nat -> let v := g i s (nth k q t0) in
  el (pos_array St g q i s) (3 * k) = Some (vx v) /\ el (pos_array St g q i s) (3 * k + 1) = Some (vy v) /\ el (pos_array St g q i s) (3 * k + 2) = Some (vz v).
Proof.
  unfold pos_array, el. revert k. induction q as [|t q IH]; intros k K; cbn in K; [lia|]. destruct k as [|k]; [cbn; auto|]. cbn [flat_map]. replace (3 * S k)%nat with (3 + 3 * k)%nat by lia.
  unfold row at 1 2 3. specialize (IH k ltac:(lia)). cbv zeta in *. cbn [app]. rewrite <- !Nat.add_assoc. exact IH.
Qed.
Lemma el_der St (dg : nat -> St -> R -> list vec3) q n i s k c t0 : (forall t, length (dg i s t) = n) -> (k < length q)%nat -> (c < n)%nat -> let v := nth c (dg i s (nth k q t0)) v0 in
  el (der_array St dg q i s) (3 * k * n + 0 * n + c) = Some (vx v) /\ el (der_array St dg q i s) (3 * k * n + 1 * n + c) = Some (vy v) /\ el (der_array St dg q i s) (3 * k * n + 2 * n + c) = Some (vz v).
Proof.
  intros L. unfold der_array, el. revert k. induction q as [|t q IH]; intros k K C; cbn [length] in K; [lia|].
  assert (M : forall f : vec3 -> R, length (map (fun v => Some (f v)) (dg i s t)) = n) by (intros; now rewrite map_length).
  destruct k as [|k].
  - cbn [flat_map nth]. rewrite <- !app_assoc.
    assert (N : forall f : vec3 -> R, nth c (map (fun v => Some (f v)) (dg i s t)) None = Some (f (nth c (dg i s t) v0))).
    { intros f. rewrite (nth_indep _ None (Some (f v0))) by (rewrite M; exact C). apply (map_nth (fun v => Some (f v))). }
    split; [|split].
    + rewrite app_nth1 by (rewrite M; lia). apply N.
    + rewrite app_nth2 by (rewrite M; lia). rewrite M. rewrite app_nth1 by (rewrite M; lia). replace (3 * 0 * n + 1 * n + c - n)%nat with c by lia. apply N.
    + rewrite app_nth2 by (rewrite M; lia). rewrite M. rewrite app_nth2 by (rewrite M; lia). rewrite M. rewrite app_nth1 by (rewrite M; lia). replace (3 * 0 * n + 2 * n + c - n - n)%nat with c by lia. apply N.
  - cbn [flat_map]. specialize (IH k ltac:(lia) C). cbv zeta in *. cbn [nth].
    assert (SK : forall j (l : arr), nth (3 * S k * n + j) (( map (fun v => Some (vx v)) (dg i s t) ++ map (fun v => Some (vy v)) (dg i s t) ++ map (fun v => Some (vz v)) (dg i s t)) ++ l) None = nth (3 * k * n + j) l None).
    { intros j l. rewrite app_nth2; rewrite !app_length, !M; [f_equal; lia|lia]. }
    rewrite <- !Nat.add_assoc in *. rewrite !SK. exact IH.
Qed.
Lemma map_seq_list {A B} (f : nat -> B) (h : A -> B) (q : list A) (a0 : A) : (forall k, (k < length q)%nat -> f k = h (nth k q a0)) -> map f (seq 0 (length q)) = map h q.
Proof. intros H. transitivity (map h (map (fun k => nth k q a0) (seq 0 (length q)))); [rewrite map_map; apply map_ext_in; intros k K; apply in_seq in K; apply H; lia|]. f_equal. clear. induction q as [|a q IH]; [reflexivity|]. cbn [length]. change (seq 0 (S (length q))) with (0%nat :: seq 1 (length q)). cbn [map nth]. rewrite <- seq_shift, map_map. f_equal. exact IH. Qed.
Theorem C72_current_values St g dg q n s : (forall t, length (dg 1%nat s t) = n) -> (forall t, In t q -> incremental_arclength (g 1%nat s t) <> 0) ->
  (forall k, (k < 4)%nat -> value St (curve_table St g dg q n) 3 s k = flat_map (fun t => row (g k s t)) q) /\
  (forall k, (k < 4)%nat -> value St (curve_table St g dg q n) 3 s (4 + k)%nat = der_array St dg q k s) /\
  value St (curve_table St g dg q n) 3 s 8%nat = map (fun t => Some (incremental_arclength (g 1%nat s t))) q /\
  value St (curve_table St g dg q n) 3 s 9%nat = concat (map (fun t => map (fun c => Some (dincremental_arclength (g 1%nat s t) c)) (dg 1%nat s t)) q).
Proof.
  intros L NZ.
  assert (ARC : arclength_of q (pos_array St g q 1 s) = map (fun t => Some (incremental_arclength (g 1%nat s t))) q).
  { apply (map_seq_list _ _ q 0). intros k K. destruct (el_pos St g q 1 s k 0 K) as (-> & -> & ->). reflexivity. }
  split; [|split; [|split]].
  - intros k K. rewrite value3, tab_pos by exact K. reflexivity.
  - intros k K. do 4 (destruct k as [|k]; [reflexivity|]). lia.
  - exact ARC.
  - transitivity (darclength_of q n (pos_array St g q 1 s) (der_array St dg q 1 s) (arclength_of q (pos_array St g q 1 s))); [reflexivity|]. rewrite ARC. unfold darclength_of. rewrite flat_map_concat_map. f_equal. apply (map_seq_list _ _ q 0). intros k K.
    rewrite <- (L (nth k q 0)) at 1. apply (map_seq_list _ _ _ v0). intros c C. rewrite (L (nth k q 0)) in C. cbv zeta.
    destruct (el_pos St g q 1 s k 0 K) as (-> & -> & ->). destruct (el_der St dg q n 1 s k c 0 L K C) as (-> & -> & ->).
    assert (EL : el (map (fun t => Some (incremental_arclength (g 1%nat s t))) q) k = Some (incremental_arclength (g 1%nat s (nth k q 0)))).
    { unfold el. rewrite (nth_indep _ None (Some (incremental_arclength (g 1%nat s 0)))) by (now rewrite map_length). apply (map_nth (fun t => Some (incremental_arclength (g 1%nat s t)))). }
    rewrite EL. cbn [oinv]. destruct (Req_EM_T _ 0) as [Z|_]; [exfalso; apply (NZ (nth k q 0)); [now apply nth_In|exact Z]|]. reflexivity.
Qed.

(** CurvePlanarFourier: each d..._by_dcoeff keeps the values of the coefficients at its first use, for every later history *)
Lemma first_derivatives order q p i : (i < 4)%nat -> exists o, query planar (pl_table order q) 3 (4 + i)%nat (fresh planar p) = Some (der_array planar (pl_dg order) q i p, o).
Proof.
  intros H. unfold pl_table. cbn [query]. assert (P : persistent (curve_table planar (pl_g order) (pl_dg order) q (pl_num_dofs order) (4 + i)%nat) = true).
  { unfold curve_table. destruct (4 + i <? 4)%nat eqn:A; [apply Nat.ltb_lt in A; lia|]. destruct (4 + i <? 8)%nat eqn:B; [reflexivity|apply Nat.ltb_ge in B; lia]. }
  rewrite (tab_per _ _ _ _ _ _ P). unfold map_of. rewrite (tab_per _ _ _ _ _ _ P). cbn [persistent fresh pcache estatus edims dims members]. rewrite dims_eqb_refl. cbn [body run]. cbn [write accumulates]. replace (4 + i - 4)%nat with i by lia. eexists. reflexivity.
Qed.
Theorem C72_curveplanarfourier_derivatives_are_stale order q p1 i ops l o v o' : (i < 4)%nat -> no_writes planar ops ->
  history planar (pl_table order q) 3 (OQuery (4 + i)%nat :: ops) (fresh planar p1) = Some (l, o) -> query planar (pl_table order q) 3 (4 + i)%nat o = Some (v, o') ->
  v = der_array planar (pl_dg order) q i p1.
Proof.
  intros I NW H Q. destruct (first_derivatives order q p1 i I) as (o1 & E1). unfold history in H; fold (history planar (pl_table order q)) in H. rewrite E1 in H. destruct (history planar (pl_table order q) 3 ops o1) as [[l' o2]|] eqn:E2; [|discriminate]. injection H as _ ->.
  refine (C72_persistent_values_are_never_recomputed planar (pl_table order q) (4 + i)%nat 3 _ _ o1 ops l' o 3 v o' _ E1 NW E2 Q).
  unfold pl_table, curve_table. destruct (4 + i <? 4)%nat eqn:A; [apply Nat.ltb_lt in A; lia|]. destruct (4 + i <? 8)%nat eqn:B; [reflexivity|apply Nat.ltb_ge in B; lia].
Qed.
Example stale_history order q p1 p2 : exists o, history planar (pl_table order q) 3 [OQuery 4%nat; OSet p2; OQuery 4%nat] (fresh planar p1) =
  Some ([der_array planar (pl_dg order) q 0 p1; der_array planar (pl_dg order) q 0 p1], o) /\
  ideal planar (pl_table order q) 3 p1 [OQuery 4%nat; OSet p2; OQuery 4%nat] = [der_array planar (pl_dg order) q 0 p1; der_array planar (pl_dg order) q 0 p2].
Proof.
  destruct (first_derivatives order q p1 0 ltac:(lia)) as (o1 & E1). cbn [Nat.add] in E1.
  assert (S := query_stuck _ _ _ _ _ _ _ E1). apply (stuck_set _ _ _ _ p2) in S; [|reflexivity]. destruct S as (e & A & B & C). exists (CacheModel.put planar (pl_table order q) 4%nat e (set_members planar p2 o1)). split; [|reflexivity]. cbn [history]. rewrite E1. cbn [query]. rewrite A, B, C. reflexivity.
Qed.
(** and the difference is real: turn the coil of radius 1 around by half a turn about its axis *)
Definition turned (order : nat) (a b : R) : planar := PL (1 :: repeat 0 order) (repeat 0 order) (Q4 a 0 0 b) v0.
Lemma inv_mag_a : inv_magnitude (Q4 1 0 0 0) = 1. Proof. unfold inv_magnitude. cbn [q0 q1 q2 q3]. destruct (Req_EM_T _ 0); [reflexivity|]. replace (1*1+0*0+0*0+0*0) with 1 by ring. rewrite sqrt_1. field. Qed.
Lemma inv_mag_b : inv_magnitude (Q4 0 0 0 1) = 1. Proof. unfold inv_magnitude. cbn [q0 q1 q2 q3]. destruct (Req_EM_T _ 0); [reflexivity|]. replace (0*0+0*0+0*0+1*1) with 1 by ring. rewrite sqrt_1. field. Qed.
Lemma first_entry order p q : el (der_array planar (pl_dg order) (0 :: q) 0 p) 0 = Some (vx (rot (q_norm (pq p)) (scal3 1 (c0 0 0)))).
Proof.
  unfold der_array, pl_dg, pl_dgamma, pl_columns, el. cbn [flat_map]. rewrite Nat.add_1_r. change (seq 0 (S order)) with (0%nat :: seq 1 order). cbn [map app nth]. now rewrite Rmult_0_r.
Qed.
Theorem C72_curveplanarfourier_stale_is_wrong order q :
  der_array planar (pl_dg order) (0 :: q) 0 (turned order 1 0) <> der_array planar (pl_dg order) (0 :: q) 0 (turned order 0 1).
Proof.
  intros H. assert (E := f_equal (fun a => el a 0) H). cbv beta in E. rewrite !first_entry in E. injection E as E. revert E. unfold q_norm, turned. cbn [pq]. rewrite inv_mag_a, inv_mag_b. unfold rot, c0. cbn [vx vy vz q0 q1 q2 q3 scal3].
  rewrite Rmult_0_r, cos_0, sin_0. lra.
Qed.
(** writing nan into gamma by nan coefficients, or by the user, is for ever: gamma starts with data *= 0 *)
Lemma pos_length St g q i s : length (pos_array St g q i s) = (3 * length q)%nat.
Proof. unfold pos_array. induction q as [|t q IH]; [reflexivity|]. cbn [flat_map]. rewrite app_length, IH. cbn. lia. Qed.
Theorem C72_user_nan_stays St g dg q n k s ops a i l o2 v o3 : (k < 4)%nat -> (i < 3 * length q)%nat -> nth_error a i = Some None ->
  no_writes St ops ->
  history St (curve_table St g dg q n) 3 (OQuery k :: OWrite k a :: OQuery k :: ops) (fresh St s) = Some (l, o2) -> query St (curve_table St g dg q n) 3 k o2 = Some (v, o3) -> nth_error v i = Some None.
Proof.
  intros K I N NW H Q. cbn [history] in H. destruct (query _ _ _ _ _) as [[x ox]|] eqn:E1; [|discriminate].
  set (tab := curve_table St g dg q n) in *. destruct (C72_returned_arrays_are_the_cache St tab k 3 _ x ox a 2 E1) as (o' & E2). rewrite E2 in H.
  destruct (history St tab 3 ops o') as [[l' o2']|] eqn:E3; [|discriminate]. injection H as _ ->.
  apply (C72_nan_is_forever St tab k (3 * length q) i) with (fuel := 3%nat) (o := overwrite St tab k a ox) (a := a) (o1 := o') (ops := ops) (l := l') (o2 := o2) (fuel' := 3%nat) (o3 := o3); auto.
  - unfold tab, curve_table. apply Nat.ltb_lt in K. now rewrite K.
  - intros s'. unfold tab, curve_table. apply Nat.ltb_lt in K. rewrite K. cbn. constructor. apply pos_length.
Qed.

(** surface.h:224 darea_by_dcoeff, shape {num_dofs()}: asked for, resolution lowered (surfacerzfourier.py:583-615 changes
    num_dofs and calls invalidate_cache), asked for again: not an array of the new shape.  [f] is its body, any function of the state *)
Definition darea_table (f : nat -> arr) (_ : key) : quantity nat := Q nat false false (fun nd => [nd]) (fun nd => Done (f nd)).
Example shape_history f nd nd' : nd <> nd' -> history nat (darea_table f) 1 [OQuery 0%nat; OSet nd'; OQuery 0%nat] (fresh nat nd) = None.
Proof.
  intros N. cbn [history]. destruct (query nat (darea_table f) 1 0%nat (fresh nat nd)) as [[a o]|] eqn:E; [|reflexivity].
  rewrite (C72_shape_is_fixed_at_first_use nat (darea_table f) 0%nat [nd] eq_refl 1 _ a o [OSet nd'] [] (set_members nat nd' o) 1 E); [reflexivity|discriminate|reflexivity| |reflexivity|cbn; congruence].
  intros k b [H|[]]. discriminate.
Qed.
