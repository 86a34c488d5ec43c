(** C89: continuity is Kirchhoff's law on the whole torus; C90: loops of current around cells. *)
From Coq Require Import Reals Lra Lia List Bool Arith ZArith ZifyNat Psatz Permutation.
From Verif Require Import ListAux VecAux Vec3 SurfModel SurfProps SurfGeom SurfGeomProps CurveObjModel CurveObjProps GPMOModel GPMOProps WFModel WFGeom.
Import ListNotations.
Open Scope R_scope.
Ltac Zify.zify_post_hook ::= idtac.

(** ** Specification *)
Section Spec.
Variables (nt np nfp : nat) (s : surf) (x : nat -> R).
(** all constraints of a list hold *)
Definition sat (l : list constr) : Prop := forall c, In c l -> dotr nt np (crow c) x = cst c.
Definition v3_dec (p q : vec3) : {p = q} + {p <> q}.
Proof. decide equality; apply Req_EM_T. Defined.
Definition here (p q : vec3) : R := if v3_dec p q then 1 else 0.
(** the current leaving the point p of space: over all half periods and segments, current out of p minus current into p *)
Definition outflow (p : vec3) : R :=
  sum_to (2 * nfp) (fun h => seg_sign h * sum_to (nseg nt np) (fun k => x k * (here p (node_pos nt np s nfp h (seg_start nt np k)) - here p (node_pos nt np s nfp h (seg_end nt np k))))).
(** the same for one copy of one node: half period h, node k *)
Definition outnode (h k : nat) : R := seg_sign h * sum_to (nseg nt np) (fun t => x t * ((if (seg_start nt np t =? k)%nat then 1 else 0) - (if (seg_end nt np t =? k)%nat then 1 else 0))).
(** the other copy of a node on a symmetry plane: adjacent half period, opposite poloidal angle *)
Definition partner (h i j : nat) : option (nat * nat) :=
  if (i =? 0)%nat then Some ((if Nat.even h then h + 1 else h - 1)%nat, ((nt - j) mod nt)%nat)
  else if (i =? np)%nat then Some ((if Nat.even h then (h + 3) mod (2 * nfp) else (h + 2 * nfp - 3) mod (2 * nfp))%nat, ((nt - j) mod nt)%nat)
  else None.
End Spec.

(** ** The constraints after construction *)
Lemma has_in w n : has w n = true <-> In n (map cn (cons w)).
Proof. unfold has. destruct (in_dec cname_eq_dec n (map cn (cons w))); split; auto; discriminate. Qed.
Lemma has_not w n : has w n = false <-> ~ In n (map cn (cons w)).
Proof. unfold has. destruct (in_dec cname_eq_dec n (map cn (cons w))); split; auto; [discriminate|contradiction]. Qed.
Lemma add_ok n r c w : has w n = false -> add n r c w = (W (cons w ++ [C n r c]) (fresh w && negb (is_segment n)), None).
Proof. intros H. unfold add. now rewrite H. Qed.
Lemma each_add {A} (nm : A -> cname) (rw : A -> row) (k : A -> R) l : forall w, NoDup (map nm l) -> (forall a, In a l -> ~ In (nm a) (map cn (cons w))) ->
  each (fun a => add (nm a) (rw a) (k a)) l w = (W (cons w ++ map (fun a => C (nm a) (rw a) (k a)) l) (fresh w && negb (existsb (fun a => is_segment (nm a)) l)), None).
Proof.
  induction l as [|a l IH]; intros w ND F; [cbn; rewrite app_nil_r, andb_true_r; now destruct w|]. cbn [each]. unfold bind. assert (H : has w (nm a) = false) by (apply has_not, F; left; auto). rewrite add_ok by exact H. cbn [snd fst]. inversion ND as [|? ? NI ND']; subst. rewrite IH.
  - cbn [fst snd cons fresh map existsb]. rewrite <- app_assoc. cbn [app]. f_equal. f_equal. rewrite negb_orb, andb_assoc. reflexivity.
  - exact ND'.
  - intros b Hb. cbn [cons]. rewrite map_app, in_app_iff. intros [I|[I|[]]]; [now apply (F b (or_intror Hb))|]. cbn [cn] in I. apply NI. rewrite I. now apply in_map.
Qed.
Lemma in_grid nt np i j : In (i, j) (grid nt np) <-> (i <= np)%nat /\ (j < nt)%nat.
Proof.
  unfold grid. rewrite in_flat_map. split.
  - intros (a & Ha & H). apply in_map_iff in H. destruct H as (b & E & Hb). injection E as -> ->. apply in_seq in Ha, Hb. lia.
  - intros (Hi & Hj). exists i. split; [apply in_seq; lia|]. apply in_map_iff. exists j. split; [reflexivity|apply in_seq; lia].
Qed.
Lemma NoDup_grid nt np : NoDup (grid nt np).
Proof.
  unfold grid. generalize 0%nat at 2. generalize (np + 1)%nat as n. induction n as [|n IH]; intros a; [constructor|]. cbn [seq flat_map]. apply NoDup_app2; [|apply IH|].
  - apply FinFun.Injective_map_NoDup; [intros u v E; now injection E|apply seq_NoDup].
  - intros (u, v) I1 I2. apply in_map_iff in I1. destruct I1 as (c & E & _). injection E as <- <-. apply in_flat_map in I2. destruct I2 as (b & Hb & I2). apply in_map_iff in I2. destruct I2 as (e & E & _). injection E as -> ->. apply in_seq in Hb. lia.
Qed.
Lemma initial_eq nt np : (0 < nt)%nat -> initial nt np = (W (map (fun ij => C (CCont (node nt (fst ij) (snd ij))) (cont_row (connected nt np (fst ij) (snd ij))) 0) (filter (fun ij => has_continuity nt np (fst ij) (snd ij)) (grid nt np))) true, None).
Proof.
  intros Hn. unfold initial. rewrite (each_add (fun ij => CCont (node nt (fst ij) (snd ij))) (fun ij => cont_row (connected nt np (fst ij) (snd ij))) (fun _ => 0)).
  - cbn [cons fresh app]. f_equal. f_equal. set (l := filter _ _). assert (Z : existsb (fun a : nat * nat => is_segment (CCont (node nt (fst a) (snd a)))) l = false) by (induction l; cbn; auto). rewrite Z. reflexivity.
  - assert (G : forall l, NoDup l -> (forall a, In a l -> (snd a < nt)%nat) -> NoDup (map (fun ij => CCont (node nt (fst ij) (snd ij))) l)). { induction l as [|a l IH]; intros ND B; [constructor|]. inversion ND as [|? ? NI ND']; subst. cbn [map]. constructor; [|apply IH; auto; intros; apply B; right; auto]. intros I. apply in_map_iff in I. destruct I as (b & E & Ib). injection E as E. apply NI. unfold node in E. apply digits in E; [|apply B; right; auto|apply B; left; auto]. destruct a, b. cbn [fst snd] in E. destruct E as (-> & ->). exact Ib. }
    apply G; [apply NoDup_filter, NoDup_grid|]. intros (i, j) I. apply filter_In in I. destruct I as (I & _). apply in_grid in I. cbn. lia.
  - intros a _ []. 
Qed.

Section Thms.
Variables (nt np : nat).
Hypothesis Hnt : (2 * half nt = nt /\ 1 <= half nt)%nat.
Hypothesis Hnp : (2 <= np)%nat.
Notation half := (half nt). Notation nseg := (nseg nt np). Notation node := (node nt).
Notation seg_start := (seg_start nt np). Notation seg_end := (seg_end nt np). Notation connected := (connected nt np).
Notation T := (T nt). Notation P := (P nt np). Notation neg := (neg nt).
Lemma sat_initial x : sat nt np x (cons (fst (initial nt np))) <-> continuous nt np x.
Proof.
  rewrite initial_eq by lia. cbn [fst cons]. unfold sat, continuous. split.
  - intros H i j Hi Hj Hc. apply (H (C (CCont (node i j)) (cont_row (connected i j)) 0)). apply in_map_iff. exists (i, j). split; [reflexivity|]. apply filter_In. split; [apply in_grid; lia|exact Hc].
  - intros H c I. apply in_map_iff in I. destruct I as ((i, j) & <- & I). apply filter_In in I. destruct I as (I & Hc). apply in_grid in I. cbn [crow cst fst snd] in *. apply H; auto; lia.
Qed.
(** Kirchhoff's law at every point of space *)
Theorem C89_kirchhoff s nfp x : stellsym s = true -> (0 < nfp)%nat -> sat nt np x (cons (fst (initial nt np))) -> forall p, outflow nt np nfp s x p = 0.
Proof. intros Hs Hf H p. apply (torus_flux nt np Hnt Hnp s nfp Hs Hf (here p)). now apply sat_initial. Qed.
(** the copies of a node named by [partner] are the same point *)
Theorem C89_partners s nfp h i j : stellsym s = true -> (0 < nfp)%nat -> (h < 2 * nfp)%nat -> (i <= np)%nat -> (j < nt)%nat -> match partner nt np nfp h i j with
  | Some (h', j') => (h' < 2 * nfp)%nat /\ h' <> h /\ partner nt np nfp h' i j' = Some (h, j) /\ node_pos nt np s nfp h' (node i j') = node_pos nt np s nfp h (node i j) | None => True end.
Proof.
  intros Hs Hf Hh Hi Hj. assert (HE : exists a, h = (2 * a)%nat \/ h = (2 * a + 1)%nat) by (exists (h / 2)%nat; assert (K := Nat.div_mod h 2 ltac:(lia)); assert (K2 := Nat.mod_upper_bound h 2 ltac:(lia)); lia). destruct HE as (a & HE).
  assert (EV : forall a, Nat.even (2 * a) = true) by (intros; rewrite Nat.even_mul; reflexivity). assert (NN : ((nt - (nt - j) mod nt) mod nt)%nat = j) by (apply neg_neg; [exact Hnt|exact Hj]).
  unfold partner. destruct (Nat.eqb_spec i 0) as [->|NE].
  - destruct HE as [->| ->].
    + rewrite EV. split; [lia|]. split; [lia|]. rewrite even_odd_f. replace (2 * a + 1 - 1)%nat with (2 * a)%nat by lia. rewrite NN. split; [reflexivity|]. now apply pos_plane0.
    + rewrite even_odd_f. replace (2 * a + 1 - 1)%nat with (2 * a)%nat by lia. rewrite EV. split; [lia|]. split; [lia|]. rewrite NN. split; [reflexivity|]. rewrite <- (pos_plane0 nt np Hnt Hnp s nfp Hs Hf a); [|apply Nat.mod_upper_bound; lia]. unfold WFGeom.neg. rewrite NN. reflexivity.
  - destruct (Nat.eqb_spec i np) as [->|NE']; [|exact I]. assert (M2 : forall c, ((2 * c) mod (2 * nfp) = 2 * (c mod nfp))%nat) by (intros c; apply Nat.mul_mod_distr_l; lia). assert (M3 : forall c, ((2 * c + 1) mod (2 * nfp) = 2 * (c mod nfp) + 1)%nat) by (intros c; rewrite <- Nat.add_mod_idemp_l, M2 by lia; apply Nat.mod_small; assert (K := Nat.mod_upper_bound c nfp ltac:(lia)); lia).
    destruct HE as [->| ->].
    + rewrite EV. replace (2 * a + 3)%nat with (2 * (a + 1) + 1)%nat by lia. rewrite M3. assert (K := Nat.mod_upper_bound (a + 1) nfp ltac:(lia)). split; [lia|]. split; [lia|]. rewrite even_odd_f, NN. split; [|apply pos_planeN; auto; lia]. f_equal. f_equal.
      replace (2 * ((a + 1) mod nfp) + 1 + 2 * nfp - 3)%nat with (2 * ((a + 1) mod nfp + (nfp - 1)))%nat by lia. rewrite M2, Nat.add_mod_idemp_l by lia. replace (a + 1 + (nfp - 1))%nat with (a + 1 * nfp)%nat by lia. rewrite Nat.mod_add, Nat.mod_small by lia. reflexivity.
    + rewrite even_odd_f. replace (2 * a + 1 + 2 * nfp - 3)%nat with (2 * (a + (nfp - 1)))%nat by lia. rewrite M2. assert (K := Nat.mod_upper_bound (a + (nfp - 1)) nfp ltac:(lia)). split; [lia|]. split; [lia|]. rewrite EV, NN. assert (AE : ((a + (nfp - 1)) mod nfp + 1) mod nfp = a). { rewrite Nat.add_mod_idemp_l by lia. replace (a + (nfp - 1) + 1)%nat with (a + 1 * nfp)%nat by lia. rewrite Nat.mod_add, Nat.mod_small by lia. reflexivity. }
      split; [replace (2 * ((a + (nfp - 1)) mod nfp) + 3)%nat with (2 * ((a + (nfp - 1)) mod nfp + 1) + 1)%nat by lia; now rewrite M3, AE|]. rewrite <- (pos_planeN nt np Hnt Hnp s nfp Hs Hf ((a + (nfp - 1)) mod nfp)); [|exact K|apply Nat.mod_upper_bound; lia]. rewrite AE. unfold WFGeom.neg. rewrite NN. reflexivity.
Qed.
Lemma outnode_flux x h k : outnode nt np x h k = seg_sign h * sum_to nseg (fun t => x t * ((fun n => if (n =? k)%nat then 1 else 0) (seg_start t) - (fun n => if (n =? k)%nat then 1 else 0) (seg_end t))).
Proof. reflexivity. Qed.
Lemma node_eqb i j i' j' : (j < nt)%nat -> (j' < nt)%nat -> (node i j =? node i' j')%nat = ((i =? i') && (j =? j'))%nat.
Proof.
  intros H H'. destruct (Nat.eqb_spec (node i j) (node i' j')) as [E|NE]; [apply digits in E; auto; destruct E as (-> & ->); now rewrite !Nat.eqb_refl|]. destruct (Nat.eqb_spec i i'), (Nat.eqb_spec j j'); subst; auto; congruence.
Qed.
Lemma outnode_val x h i j : (i <= np)%nat -> (j < nt)%nat -> outnode nt np x h (node i j) = seg_sign h * if (i =? 0)%nat then net0 nt np x j else if (i =? np)%nat then netN nt np x j else netI nt np x i j.
Proof.
  intros Hi Hj. rewrite outnode_flux. f_equal. rewrite (flux_form nt np Hnt Hnp x (fun n => if (n =? node i j)%nat then 1 else 0)).
  assert (Z : forall i' (f : nat -> R), sum_to nt (fun b => f b * (if (node i' b =? node i j)%nat then 1 else 0)) = if (i' =? i)%nat then f j else 0).
  { intros i' f. rewrite (sum_to_ext nt _ (fun b => if (b =? j)%nat then (if (i' =? i)%nat then f b else 0) else 0)) by (intros b Hb; rewrite node_eqb by auto; destruct (i' =? i)%nat, (b =? j)%nat; cbn [andb]; ring). now apply sum_to_single. }
  rewrite !Z. rewrite (sum_to_ext (np - 1) _ (fun a => if (a =? i - 1)%nat then (if (0 <? i)%nat then netI nt np x (S a) j else 0) else 0)).
  - destruct (Nat.eqb_spec i 0) as [->|NE]; [cbn [Nat.eqb]; destruct (Nat.eqb_spec np 0); [lia|]; rewrite sum_to_nil; [ring|]; intros k Hk; destruct (k =? 0 - 1)%nat; reflexivity|]. destruct (Nat.eqb_spec 0 i); [lia|]. destruct (Nat.ltb_spec 0 i); [|lia]. destruct (Nat.eqb_spec i np) as [->|NE'].
    + rewrite Nat.eqb_refl. rewrite sum_to_nil; [ring|]. intros k Hk. destruct (Nat.eqb_spec k (np - 1)); [lia|reflexivity].
    + destruct (Nat.eqb_spec np i); [lia|]. rewrite (sum_to_single (np - 1) (i - 1) (fun a => netI nt np x (S a) j)) by lia. replace (S (i - 1)) with i by lia. ring.
  - intros a Ha. rewrite Z. destruct (Nat.eqb_spec (S a) i), (Nat.eqb_spec a (i - 1)), (Nat.ltb_spec 0 i); try lia; reflexivity.
Qed.
(** the constraints are exactly Kirchhoff's law at every node of the torus, copies taken together *)
Theorem C89_exact nfp x : (0 < nfp)%nat -> sat nt np x (cons (fst (initial nt np))) <->
  forall h i j, (h < 2 * nfp)%nat -> (i <= np)%nat -> (j < nt)%nat ->
    outnode nt np x h (node i j) + match partner nt np nfp h i j with Some (h', j') => outnode nt np x h' (node i j') | None => 0 end = 0.
Proof.
  intros Hf. rewrite sat_initial. split.
  - intros Hx h i j Hh Hi Hj. unfold partner. fold (neg j). destruct (Nat.eqb_spec i 0) as [->|NE].
    + rewrite !outnode_val by (auto; try lia; apply neg_lt; auto). cbn [Nat.eqb]. assert (K := cont_0 nt np Hnt Hnp x Hx j Hj). assert (SE : forall b, seg_sign (if Nat.even h then b + 1 else b - 1)%nat = seg_sign (if Nat.even h then b + 1 else b - 1)%nat) by reflexivity.
      unfold seg_sign at 1. destruct (Nat.even h) eqn:EH; unfold seg_sign; [rewrite Nat.even_add, EH; cbn [Nat.even Bool.eqb]; lra|]. replace (Nat.even (h - 1)) with true; [lra|]. destruct h as [|h]; [discriminate|]. rewrite Nat.even_succ, <- Nat.negb_even in EH. cbn [Nat.sub]. rewrite Nat.sub_0_r. destruct (Nat.even h); [reflexivity|discriminate].
    + destruct (Nat.eqb_spec i np) as [->|NE'].
      * rewrite !outnode_val by (auto; try lia; apply neg_lt; auto). destruct (Nat.eqb_spec np 0); [lia|]. rewrite Nat.eqb_refl. assert (K := cont_N nt np Hnt Hnp x Hx j Hj).
        assert (EM : forall c, Nat.even (c mod (2 * nfp)) = Nat.even c). { intros c. assert (K2 := Nat.div_mod c (2 * nfp) ltac:(lia)). rewrite K2 at 2. rewrite Nat.even_add, !Nat.even_mul. cbn [Nat.even orb]. now destruct (Nat.even (c mod (2 * nfp))). }
        unfold seg_sign. destruct (Nat.even h) eqn:EH; rewrite EM; [rewrite Nat.even_add, EH; cbn [Nat.even Bool.eqb]; lra|]. replace (Nat.even (h + 2 * nfp - 3)) with true; [lra|]. destruct h as [|h]; [discriminate|]. rewrite Nat.even_succ, <- Nat.negb_even in EH. replace (S h + 2 * nfp - 3)%nat with (h + 2 * (nfp - 1))%nat by lia. rewrite Nat.even_add, Nat.even_mul. cbn [Nat.even orb]. destruct (Nat.even h); [reflexivity|discriminate].
      * rewrite outnode_val by auto. destruct (Nat.eqb_spec i 0); [lia|]. destruct (Nat.eqb_spec i np); [lia|]. rewrite cont_int by (auto; lia). ring.
  - intros H i j Hi Hj Hc. specialize (H O i j ltac:(lia) Hi Hj). unfold partner in H. fold (neg j) in H. cbn [Nat.even] in H. unfold has_continuity in Hc. destruct (Nat.eqb_spec i 0) as [->|NE].
    + assert (0 < j < half)%nat by lia. rewrite row_0 by auto. rewrite !outnode_val in H by (auto; try lia; apply neg_lt; auto). cbn [Nat.eqb] in H. unfold seg_sign in H. cbn in H. lra.
    + destruct (Nat.eqb_spec i np) as [->|NE'].
      * assert (0 < j < half)%nat by lia. rewrite row_N by auto. rewrite !outnode_val in H by (auto; try lia; apply neg_lt; auto). destruct (Nat.eqb_spec np 0); [lia|]. rewrite Nat.eqb_refl in H. assert (E3 : seg_sign ((0 + 3) mod (2 * nfp)) = -1). { unfold seg_sign. assert (K2 := Nat.div_mod (0 + 3) (2 * nfp) ltac:(lia)). replace (Nat.even ((0 + 3) mod (2 * nfp))) with false; [reflexivity|]. assert (EO : Nat.even (0 + 3) = false) by reflexivity. rewrite K2, Nat.even_add, !Nat.even_mul in EO. cbn [Nat.even orb] in EO. now destruct (Nat.even ((0 + 3) mod (2 * nfp))). }
        rewrite E3 in H. unfold seg_sign in H. cbn [Nat.even] in H. lra.
      * rewrite row_int by (auto; lia). rewrite outnode_val in H by auto. destruct (Nat.eqb_spec i 0); [lia|]. destruct (Nat.eqb_spec i np); [lia|]. unfold seg_sign in H. cbn [Nat.even] in H. lra.
Qed.
End Thms.
