(** C103: serial_solve and constrained_serial_solve. *)
From Verif Require Import ListAux DofsModel VecAux LsqModel LsqProps ConProps SolveModel SolveProps.
Local Open Scope R_scope.

(** ** serial_solve *)
(** the optimizer run on the function prob(x), with 1e12 where it raises *)
Fixpoint sideal {X} (f : X -> R) (st : sstrat X) : list (X * R) * option X :=
  match st with SStop x => ([], Some x) | SThrow => ([], None) | SEval x k => let (l, r) := sideal f (k (f x)) in ((x, f x) :: l, r) end.
Fixpoint numbered {X} (n : nat) (l : list (X * R)) : list (nat * X * R) :=
  match l with [] => [] | (x, v) :: r => (n, x, v) :: numbered (S n) r end.
Lemma sexec_ideal {X} (Gs : X -> option R) st : forall x n log,
  let o := sexec Gs st x n log in let (l, r) := sideal (fun y => match Gs y with Some v => v | None => 1e12 end) st in
  so_log o = log ++ numbered n l /\ match r with Some y => so_end o = Finished /\ so_x o = y | None => so_end o = Optimizer end.
Proof.
  induction st as [y| |y k IH]; intros x n log; cbn [sexec sideal].
  - cbn. rewrite app_nil_r. auto.
  - cbn. rewrite app_nil_r. auto.
  - cbv zeta. specialize (IH (match Gs y with Some v => v | None => 1e12 end) y (S n) (log ++ [(n, y, match Gs y with Some v => v | None => 1e12 end)])). cbv zeta in IH.
    destruct (sideal _ _) as [l r]. destruct IH as [IH1 IH2]. rewrite IH1, <- app_assoc. auto.
Qed.
Theorem C103_serial_solve {X} (Gs : X -> option R) st x0 :
  (let o := serial_solve Gs false st x0 in let (l, r) := sideal (fun y => match Gs y with Some v => v | None => 1e12 end) (st x0) in
   so_log o = numbered 0 l /\ match r with Some y => so_end o = Finished /\ so_x o = y | None => so_end o = Optimizer end) /\
  (let o := serial_solve Gs true st x0 in so_end o = Raised ORuntime /\ so_log o = [] /\ so_x o = x0).
Proof. split; [|cbn; auto]. exact (sexec_ideal Gs (st x0) x0 0 []). Qed.

(** ** constrained_serial_solve *)
Lemma cloopH_soft fail first : forall cs rs nv outs, length rs = length cs -> crash_first rs = false -> cloopH fail first nv outs (combine rs cs) = cloop fail first nv outs (combine (map soft rs) cs).
Proof.
  induction cs as [|c cs IH]; intros [|[o| |] rs] nv outs L H; cbn in L, H; try discriminate; auto.
  cbn [combine map soft cloopH cloop]. destruct (bany (c_lhs c)); destruct (bany (c_rhs c)); repeat (match goal with |- context [bcast ?a ?b ?c] => destruct (bcast a b c); auto end); apply IH; auto; lia.
Qed.
Lemma cloopH_step fail first nv outs out c rest : fits (c_lhs c) out -> fits (c_rhs c) out ->
  cloopH fail first nv outs ((FOk out, c) :: rest) =
  cloopH fail first (if first then nv + length (reported c out) else nv)%nat (outs ++ reported c out) rest.
Proof.
  intros FL FR. cbn [cloopH]. unfold reported. destruct (bany (c_lhs c)); destruct (bany (c_rhs c)); rewrite ?bcast_fits by auto;
    fold (lower_part c out); fold (upper_part c out); cbn [app length]; rewrite ?app_nil_r, ?app_assoc, ?app_length; try destruct first; rewrite ?Nat.add_0_r, ?Nat.add_assoc; auto.
Qed.
Lemma cloopH_crash fail first : forall cs rs nv outs, length rs = length cs -> fit_all cs (map soft rs) -> crash_first rs = true ->
  cloopH fail first nv outs (combine rs cs) = ((if first then nv + length (stack cs (prefix (map soft rs))) else nv)%nat, CRaise ORuntime).
Proof.
  induction cs as [|c cs IH]; intros [|[o| |] rs] nv outs L H C; cbn [length] in L; cbn in C; try discriminate.
  - destruct (H 0%nat c o eq_refl eq_refl) as [FL FR]. cbn [combine]. rewrite cloopH_step, IH; auto; try lia.
    + cbn [map soft prefix stack]. rewrite app_length. destruct first; auto. f_equal. lia.
    + exact (fit_tail c cs _ _ H).
  - cbn. f_equal. destruct first; lia.
Qed.

Section Con.
Context {X : Type} (Xeq : forall a b : X, {a = b} + {a <> b}).
Variables (fail : option R) (cons : list con) (G : X -> nat -> fres) (cdims : nat -> nat).
(** constraint i has a fixed output length, and its bounds are scalars or have that length *)
Hypothesis CDims : forall x i out, (i < length cons)%nat -> G x (S i) = FOk out -> length out = cdims i.
Hypothesis CFit : forall i c, nth_error cons i = Some c -> (forall l, c_lhs c = BVec l -> length l = cdims i) /\ (forall l, c_rhs c = BVec l -> length l = cdims i).
Definition Fc (x : X) (i : nat) : option (list R) := soft (G x i).
Definition cvals (x : X) : list (option (list R)) := map (Fc x) (seq 1 (length cons)).
Definition ccrash (x : X) : bool := crash_first (map (G x) (seq 1 (length cons))).
Definition crash0 (x : X) : bool := match G x 0%nat with FCrash => true | _ => false end.

(** ** Specification *)
(** the objective at x, or fail if its function fails or raises *)
Definition obj_value (x : X) : option R := match G x 0%nat with FOk l => Some (hd 0 l) | _ => fail end.
(** the number of constraint entries: each finite bound contributes one per component *)
Definition entries : nat := fold_right Nat.add 0%nat (map (fun ic => ((if bany (c_lhs (snd ic)) then cdims (fst ic) else 0) + (if bany (c_rhs (snd ic)) then cdims (fst ic) else 0))%nat) (combine (seq 0 (length cons)) cons)).
(** the constraint entries at x, or that many times fail *)
Definition con_value (x : X) : option (list ext) :=
  match all_some (cvals x) with Some outs => Some (stack cons outs) | None => match fail with Some v => Some (repeat (Fin v) entries) | None => None end end.
(** the same for constraints asked directly: other exceptions are not masked *)
Definition raw_value (x : X) : option (list ext) := if ccrash x then None else con_value x.
Fixpoint cideal (cur : X) (st : cstrat X) : list (cseen X) * option X :=
  match st with
  | CStop x => ([], Some x)
  | CThrow => ([], None)
  | CAssign x k => cideal x k
  | CProbe x k => let x := match x with Some x => x | None => cur end in match raw_value x with None => ([], None) | Some v => cideal x (k v) end
  | CEvalO x k => match obj_value x with None => ([], None) | Some v => let (l, f) := cideal x (k v) in (SeenO x v :: l, f) end
  | CEvalC x k => match con_value x with None => ([], None) | Some v => let (l, f) := cideal x (k v) in (SeenC x v :: l, f) end
  end.

Lemma fitc x : fit_all cons (cvals x).
Proof.
  intros i c out E1 E2. assert (L : (i < length cons)%nat) by (apply nth_error_Some; congruence).
  unfold cvals in E2. rewrite nth_error_map in E2. destruct (nth_error (seq 1 (length cons)) i) as [j|] eqn:EJ; [|discriminate].
  assert (j = S i). { apply (nth_error_nth _ _ 0%nat) in EJ. rewrite seq_nth in EJ by lia. lia. } subst j.
  cbn in E2. unfold Fc in E2. destruct (G x (S i)) eqn:EG; cbn in E2; try discriminate. injection E2 as <-.
  destruct (CFit i c E1) as [A B].
  split; [destruct (c_lhs c); cbn; auto|destruct (c_rhs c); cbn; auto]; rewrite (CDims _ _ _ L EG); eauto.
Qed.
Lemma reported_length c out : length (reported c out) = ((if bany (c_lhs c) then length out else 0) + (if bany (c_rhs c) then length out else 0))%nat.
Proof. unfold reported. rewrite app_length. destruct (parts_length c out) as [A B]. destruct (bany (c_lhs c)); destruct (bany (c_rhs c)); rewrite ?A, ?B; auto. Qed.
Lemma entries_stack x outs : all_some (cvals x) = Some outs -> length (stack cons outs) = entries.
Proof.
  intros E. apply all_some_Some in E.
  assert (LO : length outs = length cons). { rewrite <- (map_length Some outs), <- E. unfold cvals. now rewrite map_length, seq_length. }
  assert (D : forall i out, nth_error outs i = Some out -> length out = cdims i).
  { intros i out Hi. assert (L : (i < length cons)%nat) by (rewrite <- LO; apply nth_error_Some; congruence).
    assert (E2 : nth_error (cvals x) i = Some (Some out)) by (rewrite E, nth_error_map, Hi; auto).
    unfold cvals in E2. rewrite nth_error_map in E2. destruct (nth_error (seq 1 (length cons)) i) as [j|] eqn:EJ; [|discriminate].
    assert (j = S i). { apply (nth_error_nth _ _ 0%nat) in EJ. rewrite seq_nth in EJ by lia. lia. } subst j.
    cbn in E2. unfold Fc in E2. destruct (G x (S i)) eqn:EG; cbn in E2; try discriminate. injection E2 as <-. eauto. }
  clear - LO D. unfold entries. assert (GG : forall cs os k, length os = length cs -> (forall i out, nth_error os i = Some out -> length out = cdims (k + i)%nat) ->
    length (stack cs os) = fold_right Nat.add 0%nat (map (fun ic => ((if bany (c_lhs (snd ic)) then cdims (fst ic) else 0) + (if bany (c_rhs (snd ic)) then cdims (fst ic) else 0))%nat) (combine (seq k (length cs)) cs))).
  { induction cs as [|c cs IH]; intros [|o os] k L D0; cbn in L; try discriminate; auto. cbn. rewrite app_length, reported_length.
    rewrite (D0 0%nat o eq_refl), Nat.add_0_r. rewrite (IH os (S k)); auto. intros i out Hi. rewrite (D0 (S i) out Hi). f_equal. lia. }
  apply GG; auto.
Qed.

Definition kinvH (xs : X * cst) (t : @kspec X) : Prop :=
  kinv fail true cons Fc xs t /\ (k_newx (snd xs) = false -> (forall v, k_obj (snd xs) = Some v -> crash0 (q_x t) = false) /\ (forall l, k_con (snd xs) = Some l -> ccrash (q_x t) = false)).
Lemma setc_inv xs t x : kinvH xs t -> kinvH (csetx Xeq xs x) (mkKS x (q_obj t) (q_con t) (q_len t)).
Proof.
  intros (I & C). unfold csetx. destruct (Xeq (fst xs) x) as [<-|N].
  - assert (E : mkKS (fst xs) (q_obj t) (q_con t) (q_len t) = t) by (destruct I as (HX & _); rewrite HX; now destruct t). rewrite E. split; auto.
  - destruct I as (HX & HF & HG & HN & HC). split; [|discriminate]. split; auto. cbn. repeat (split; [assumption|]). discriminate.
Qed.
Lemma flag_inv xs t x : kinvH xs t -> kinvH (x, flag_new (snd xs)) (mkKS x (q_obj t) (q_con t) (q_len t)).
Proof. intros ((HX & HF & HG & HN & HC) & C). split; [|discriminate]. split; auto. cbn. repeat (split; [assumption|]). discriminate. Qed.
Lemma cclear_facts s : k_nvals (cclear s) = k_nvals s /\ k_fobj (cclear s) = k_fobj s /\ k_fcon (cclear s) = k_fcon s /\ k_newx (cclear s) = k_newx s /\
  (forall v, k_obj (cclear s) = Some v -> k_newx s = false /\ k_obj s = Some v) /\ (forall v, k_con (cclear s) = Some v -> k_newx s = false /\ k_con s = Some v).
Proof. unfold cclear. destruct (k_newx s) eqn:E; cbn; repeat (split; auto); discriminate. Qed.
Lemma cclear_inv xs t : kinvH xs t -> kinvH (fst xs, cclear (snd xs)) t.
Proof.
  intros ((HX & HF & HG & HN & HC) & C). destruct (cclear_facts (snd xs)) as (A1 & A2 & A3 & A4 & A5 & A6). split.
  - split; auto. cbn [snd]. rewrite A1, A2, A3, A4. repeat (split; [assumption|]). intros NX. destruct (HC NX) as [H1 H2]. split; intros v Hv; [apply H1, A5|apply H2, A6]; auto.
  - cbn [snd]. rewrite A4. intros NX. destruct (C NX) as [H1 H2]. split; intros v Hv; [eapply H1, A5|eapply H2, A6]; eauto.
Qed.
(** the objective, with crashes *)
Lemma objH_ref xs t : kinvH xs t -> let (s', r) := cobjectiveH fail (G (fst xs)) (snd xs) in exists t',
  kinvH (fst xs, s') t' /\ q_x t' = q_x t /\ q_con t' = q_con t /\ q_len t' = q_len t /\
  match r with inl v => obj_value (q_x t) = Some v | inr _ => match G (q_x t) 0%nat with FOk _ => False | _ => True end end.
Proof.
  intros I. destruct (crash0 (q_x t)) eqn:EC.
  - assert (EG : G (q_x t) 0%nat = FCrash) by (unfold crash0 in EC; destruct (G (q_x t) 0%nat); auto; discriminate).
    destruct I as (I & C). assert (HX : fst xs = q_x t) by apply I.
    assert (KO : k_obj (cclear (snd xs)) = None). { destruct (cclear_facts (snd xs)) as (_ & _ & _ & _ & A & _). destruct (k_obj (cclear (snd xs))) as [v|]; auto. destruct (A v eq_refl) as [NX KO]. destruct (C NX) as [H _]. rewrite (H v KO) in EC. discriminate. }
    unfold cobjectiveH. rewrite KO, HX, EG. exists t. split; [rewrite <- HX; apply cclear_inv; split; auto|]. auto.
  - assert (EQ : cobjectiveH fail (G (fst xs)) (snd xs) = cobjective fail (Fc (fst xs)) (snd xs)).
    { unfold cobjectiveH, cobjective, Fc. assert (HX : fst xs = q_x t) by apply I. rewrite HX. unfold crash0 in EC. destruct (G (q_x t) 0%nat); auto. discriminate. }
    rewrite EQ. destruct I as (I & C). assert (H := obj_ref fail true cons Fc xs t I).
    assert (CN : forall s' r, cobjective fail (Fc (fst xs)) (snd xs) = (s', r) -> forall l, k_con s' = Some l -> k_newx (snd xs) = false /\ k_con (snd xs) = Some l).
    { destruct (cclear_facts (snd xs)) as (_ & _ & _ & _ & _ & A). unfold cobjective. intros s' r. destruct (k_obj (cclear (snd xs))); [intros [= <- <-]; auto|]. destruct (Fc (fst xs) 0%nat); [intros [= <- <-]; auto|]. destruct fail; [|intros [= <- <-]; auto]. destruct (k_fobj _); intros [= <- <-]; auto. }
    destruct (cobjective fail (Fc (fst xs)) (snd xs)) as [s' r] eqn:ER. specialize (CN s' r eq_refl). unfold kref_obj in H.
    assert (KEEP : forall t', q_x t' = q_x t -> kinv fail true cons Fc (fst xs, s') t' -> kinvH (fst xs, s') t').
    { intros t' E K. split; auto. rewrite E. intros _. split; [auto|]. intros l Hl. destruct (CN l Hl) as [NX KL]. destruct (C NX) as [_ C2]. eauto. }
    unfold Fc, soft in H. unfold obj_value. unfold crash0 in EC. destruct (G (q_x t) 0%nat) as [l| |] eqn:EG; [| |discriminate].
    + destruct H as (H1 & H2). eexists. split; [apply KEEP; [|exact H2]; reflexivity|]. cbn. repeat (split; [reflexivity|]). destruct r; congruence.
    + destruct fail as [v|].
      * destruct (q_obj t) eqn:EQo; destruct H as (H1 & H2); exists t; (split; [apply KEEP; auto|]); repeat (split; [reflexivity|]); destruct r; congruence || auto.
      * destruct H as (H1 & H2). exists t. split; [apply KEEP; auto|]. repeat (split; [reflexivity|]). destruct r; congruence || auto.
Qed.
Hypothesis bounded : any_bound cons = true.
(** the constraints, with crashes *)
Lemma conH_ref xs t : kinvH xs t -> let (s', r) := constraintsH fail true cons (G (fst xs)) (snd xs) in exists t',
  kinvH (fst xs, s') t' /\ q_x t' = q_x t /\ (q_con t = true -> q_con t' = true /\ q_len t' = q_len t) /\ k_nvals s' = q_len t' /\
  match r with
  | inl l => raw_value (q_x t) <> None /\ (match all_some (cvals (q_x t)) with
             | Some outs => l = stack cons outs /\ q_con t' = true /\ (q_con t = false -> q_len t' = q_len t + length (stack cons outs))%nat
             | None => q_con t = true /\ exists v, fail = Some v /\ l = repeat (Fin v) (q_len t) end)
  | inr _ => all_some (cvals (q_x t)) = None /\ (ccrash (q_x t) = false -> q_con t = true -> fail = None) /\ (q_con t = false -> q_con t' = false /\ q_len t' = q_len t + length (stack cons (prefix (cvals (q_x t)))))%nat
  end.
Proof.
  intros I. assert (HX : fst xs = q_x t) by (destruct I as ((HX & _) & _); auto). assert (CS := cclear_facts (snd xs)). destruct CS as (A1 & A2 & A3 & A4 & A5 & A6).
  assert (MS : map soft (map (G (q_x t)) (seq 1 (length cons))) = cvals (q_x t)) by (unfold cvals, Fc; now rewrite map_map).
  assert (CR : ccrash (q_x t) = true -> all_some (cvals (q_x t)) = None).
  { intros E. unfold ccrash in E. rewrite <- MS. revert E. generalize (map (G (q_x t)) (seq 1 (length cons))). clear. induction l as [|[o| |] l IH]; cbn; try discriminate; auto. intros E. now rewrite (IH E). }
  destruct (ccrash (q_x t)) eqn:EC.
  - destruct I as (I & C). assert (I' := I). destruct I' as (_ & HF & HG & HN & HC).
    assert (KO : k_con (cclear (snd xs)) = None). { destruct (k_con (cclear (snd xs))) as [v|]; auto. destruct (A6 v eq_refl) as [NX KO]. destruct (C NX) as [_ H]. rewrite (H v KO) in EC. discriminate. }
    unfold constraintsH. cbn [negb]. rewrite KO, HX, A1, A2, A3, A4, HF, HG, HN.
    rewrite cloopH_crash; [|now rewrite map_length, seq_length|rewrite MS; apply fitc|exact EC]. rewrite MS.
    set (n := length (stack cons (prefix (cvals (q_x t))))).
    exists (mkKS (q_x t) (q_obj t) (q_con t) (if negb (q_con t) then q_len t + n else q_len t)%nat). split; [split|].
    + split; auto. cbn. repeat (split; [reflexivity|]). intros NX. rewrite <- HX. split; [|discriminate]. intros v Hv.
      destruct (A5 v Hv) as [_ KO']. destruct (HC NX) as [HC1 _]. specialize (HC1 v KO'). rewrite HX. unfold kref_obj in *. cbn [q_x q_con q_len q_obj].
      destruct (Fc (q_x t) 0%nat); [injection HC1 as E1 E2; apply (f_equal q_obj) in E1; cbn in E1; now rewrite <- E1, E2|]. destruct fail; [|discriminate]. destruct (q_obj t); [|discriminate]. now injection HC1 as <-.
    + cbn. intros NX. split; [|discriminate]. intros v Hv. destruct (A5 v Hv) as [_ KO']. destruct (C NX) as [C1 _]. eauto.
    + cbn [q_x q_con q_len k_nvals]. split; auto. split; [intros ->; auto|]. split; auto. split; auto. split; [discriminate|]. intros ->. auto.
  - assert (EQ : constraintsH fail true cons (G (fst xs)) (snd xs) = constraints fail true cons (Fc (fst xs)) (snd xs)).
    { unfold constraintsH, constraints. rewrite cloopH_soft; [|now rewrite map_length, seq_length|rewrite HX; exact EC]. now rewrite map_map. }
    rewrite EQ. destruct I as (I & C). assert (H := con_ref fail true cons Fc fitc xs t I).
    assert (OB : forall s' r, constraints fail true cons (Fc (fst xs)) (snd xs) = (s', r) -> (forall v, k_obj s' = Some v -> k_newx (snd xs) = false /\ k_obj (snd xs) = Some v)).
    { unfold constraints. cbn [negb]. intros s' r. destruct (k_con (cclear (snd xs))); [intros [= <- <-]; auto|]. destruct (cloop _ _ _ _ _) as [nv [o| |e]]; [destruct (existsb _ cons)| |]; intros [= <- <-]; auto. }
    destruct (constraints fail true cons (Fc (fst xs)) (snd xs)) as [s' r] eqn:ER. specialize (OB s' r eq_refl).
    unfold kref_con in H. fold (cvals (q_x t)) in H. rewrite bounded in H.
    assert (KEEP : forall t', q_x t' = q_x t -> kinv fail true cons Fc (fst xs, s') t' -> kinvH (fst xs, s') t').
    { intros t' E K. split; auto. rewrite E. intros _. split; [|auto]. intros v Hv. destruct (OB v Hv) as [NX KL]. destruct (C NX) as [C1 _]. eauto. }
    assert (NV : forall t', kinv fail true cons Fc (fst xs, s') t' -> k_nvals s' = q_len t') by (intros t' (_ & _ & _ & K & _); exact K).
    unfold raw_value. rewrite EC. unfold con_value. destruct (all_some (cvals (q_x t))) as [outs|] eqn:EA.
    + destruct H as (H1 & H2). eexists. split; [apply KEEP; [|exact H2]; reflexivity|]. cbn [q_x q_con q_len]. split; auto. split; [intros ->; auto|]. split; [exact (NV _ H2)|].
      destruct r as [l|e]; [|discriminate]. injection H1 as ->. split; [discriminate|]. split; auto. split; auto. now intros ->.
    + destruct (q_con t) eqn:QC; destruct H as (H1 & H2).
      * exists t. split; [apply KEEP; auto|]. rewrite QC. split; auto. split; auto. split; [exact (NV _ H2)|]. destruct fail as [v|].
        -- destruct r as [l|e]; [|discriminate]. injection H1 as ->. split; [discriminate|]. eauto.
        -- destruct r as [l|e]; [discriminate|]. split; auto. split; auto. discriminate.
      * eexists. split; [apply KEEP; [|exact H2]; reflexivity|]. cbn [q_x q_con q_len]. split; auto. split; [discriminate|]. split; [exact (NV _ H2)|].
        destruct r as [l|e]; [discriminate|]. split; auto. split; [discriminate|]. auto.
Qed.
Lemma initK_inv x0 : kinvH (x0, con_init) (mkKS x0 false false 0).
Proof. split; [|discriminate]. split; auto. cbn. repeat (split; [reflexivity|]). discriminate. Qed.

Lemma cb_obj_spec xs t x : kinvH xs t -> let (xs', r) := cb_obj Xeq fail G xs x in exists t', kinvH xs' t' /\ q_x t' = x /\ q_con t' = q_con t /\ q_len t' = q_len t /\
  match r with inl v => obj_value x = Some v | inr _ => obj_value x = None end.
Proof.
  intros I. unfold cb_obj. assert (H := objH_ref _ _ (setc_inv xs t x I)). destruct (cobjectiveH _ _ _) as [s' r]. destruct H as (t' & I' & E1 & E2 & E3 & H). cbn [q_x q_con q_len] in *.
  exists t'. repeat (split; [assumption|]). destruct r as [v|e]; auto. unfold obj_value. destruct (G x 0%nat); [contradiction| |]; destruct fail; auto.
Qed.
Lemma cb_con_spec xs t x : kinvH xs t -> q_con t = true -> q_len t = entries ->
  let (xs', r) := cb_con Xeq fail true cons G xs x in exists t', kinvH xs' t' /\ q_x t' = x /\ q_con t' = true /\ q_len t' = entries /\
  (match r with inl v => con_value x = Some v | inr _ => con_value x = None end \/ (entries = 0%nat /\ r = inl [] /\ fail = None)).
Proof.
  intros I QC QL. unfold cb_con. assert (H := conH_ref _ _ (setc_inv xs t x I)). destruct (constraintsH _ _ _ _ _) as [s' r]. destruct H as (t' & I' & E1 & E2 & E3 & H). cbn [q_x q_con q_len] in *.
  destruct (E2 QC) as [E4 E5]. exists t'. repeat (split; [assumption||congruence|]). unfold con_value. destruct r as [l|e].
  - left. destruct H as (_ & H). destruct (all_some (cvals x)) as [outs|]; [destruct H as (-> & _); auto|]. destruct H as (_ & v & -> & ->). now rewrite QL.
  - destruct H as (EA & _). rewrite EA. rewrite E3, E5, QL. destruct fail as [v|]; auto. destruct entries; auto.
Qed.

(** ** C103 *)
Lemma stepK_inv xs t o : kinvH xs t -> exists t', kinvH (kstepH Xeq fail true cons G xs o) t' /\ (q_con t = true -> q_con t' = true /\ q_len t' = q_len t).
Proof.
  intros I. assert (SX : forall x, exists t', kinvH (match x with Some x => csetx Xeq xs x | None => xs end) t' /\ q_con t' = q_con t /\ q_len t' = q_len t).
  { intros [x|]; [exists (mkKS x (q_obj t) (q_con t) (q_len t)); split; auto; now apply setc_inv|eauto]. }
  destruct o as [x| |x|x]; cbn [kstepH].
  - eexists. split; [apply (flag_inv xs t x I)|auto].
  - eexists. split; [apply (flag_inv xs t (fst xs) I)|auto].
  - destruct (SX x) as (t1 & I1 & C1 & L1). assert (H := objH_ref _ _ I1). destruct (cobjectiveH _ _ _) as [s' r]. destruct H as (t' & I' & _ & E2 & E3 & _). cbn [fst]. exists t'. split; auto. intros E. split; congruence.
  - destruct (SX x) as (t1 & I1 & C1 & L1). assert (H := conH_ref _ _ I1). destruct (constraintsH _ _ _ _ _) as [s' r]. destruct H as (t' & I' & _ & E2 & _). cbn [fst]. exists t'. split; auto. intros E. rewrite C1 in E2. destruct (E2 E). split; auto. congruence.
Qed.
Lemma runK_inv ops : forall xs t, kinvH xs t -> exists t', kinvH (krunH Xeq fail true cons G xs ops) t' /\ (q_con t = true -> q_con t' = true /\ q_len t' = q_len t).
Proof.
  induction ops as [|o ops IH]; intros xs t I; cbn; eauto. destruct (stepK_inv xs t o I) as (t1 & I1 & H1). destruct (IH _ _ I1) as (t2 & I2 & H2). exists t2. split; auto.
  intros E. destruct (H1 E) as [A B]. destruct (H2 A) as [C D]. split; congruence.
Qed.

Definition obj_ok (e : cseen X) : Prop := match e with SeenO x v => obj_value x = Some v | SeenC _ _ => True end.
Lemma cexec_obj st : forall xs t seen, kinvH xs t -> Forall obj_ok seen -> Forall obj_ok (co_seen (cexec Xeq fail true cons G st xs seen)).
Proof.
  induction st as [x| |x k IH|x k IH|x k IH|x k IH]; intros xs t seen I HS; cbn [cexec]; auto.
  - assert (H := cb_obj_spec xs t x I). destruct (cb_obj Xeq fail G xs x) as [xs' [v|e]]; destruct H as (t' & I' & _ & _ & _ & H); [|auto]. eapply IH; [exact I'|]. apply Forall_app. split; [exact HS|]. constructor; auto.
  - unfold cb_con. assert (H := conH_ref _ _ (setc_inv xs t x I)). cbv zeta. destruct (constraintsH _ _ _ _ _) as [s' r]. destruct H as (t' & I' & _).
    destruct (match r with inl l => _ | inr _ => _ end); auto. eapply IH; [exact I'|]. apply Forall_app. split; [exact HS|]. constructor; cbn; auto.
  - cbv zeta. assert (exists t1, kinvH (match x with Some x => csetx Xeq xs x | None => xs end) t1) as (t1 & I1) by (destruct x; eauto using setc_inv).
    assert (H := conH_ref _ _ I1). destruct (constraintsH _ _ _ _ _) as [s' [l|e]]; auto. destruct H as (t' & I' & _). eapply IH; eauto.
  - eapply IH; eauto. exact (flag_inv xs t x I).
Qed.
(** for every optimizer and every history before the solve, every objective value handed over at x is the objective at x, or
    fail if its function fails or raises any exception there *)
Theorem C103_objective_at_x x0 ops st x v :
  In (SeenO x v) (co_seen (con_solve Xeq fail true cons G st (krunH Xeq fail true cons G (x0, con_init) ops))) ->
  match G x 0%nat with FOk l => v = hd 0 l | _ => fail = Some v end.
Proof.
  intros H. destruct (runK_inv ops _ _ (initK_inv x0)) as (t & I & _).
  assert (HF := cexec_obj (st (fst (krunH Xeq fail true cons G (x0, con_init) ops))) _ _ [] I (Forall_nil _)). rewrite Forall_forall in HF. specialize (HF _ H). cbn in HF. unfold obj_value in HF.
  destruct (G x 0%nat); auto. now injection HF.
Qed.
Lemma cexec_ideal st : (exists v, fail = Some v) \/ entries <> 0%nat -> forall xs t seen, kinvH xs t -> q_con t = true -> q_len t = entries ->
  let o := cexec Xeq fail true cons G st xs seen in let (l, f) := cideal (q_x t) st in
  co_seen o = seen ++ l /\ match f with Some x => co_end o = Finished /\ fst (co_xs o) = x | None => co_end o <> Finished end.
Proof.
  intros NZ. induction st as [x| |x k IH|x k IH|x k IH|x k IH]; intros xs t seen I QC QL; cbn [cexec cideal].
  - cbn. rewrite app_nil_r. auto.
  - cbn. rewrite app_nil_r. split; auto. discriminate.
  - assert (H := cb_obj_spec xs t x I). destruct (cb_obj Xeq fail G xs x) as [xs' [v|e]]; destruct H as (t' & I' & HX & C & L & H); rewrite H.
    + specialize (IH v xs' t' (seen ++ [SeenO x v]) I'). rewrite HX in IH. cbv zeta in IH |- *. destruct (cideal x (k v)) as [l f]. destruct IH as [IH1 IH2]; [congruence|congruence|]. rewrite IH1, <- app_assoc. auto.
    + cbn. rewrite app_nil_r. split; auto. discriminate.
  - assert (H := cb_con_spec xs t x I QC QL). destruct (cb_con Xeq fail true cons G xs x) as [xs' r]. destruct H as (t' & H).
    assert (H' : kinvH xs' t' /\ q_x t' = x /\ q_con t' = true /\ q_len t' = entries /\ match r with inl v => con_value x = Some v | inr _ => con_value x = None end).
    { destruct H as (A & B & C & D & [E|(E & _ & F)]); auto. exfalso. destruct NZ as [[v NZ]|NZ]; congruence. }
    clear H. destruct H' as (I' & HX & C & L & H). destruct r as [v|e]; rewrite H.
    + specialize (IH v xs' t' (seen ++ [SeenC x v]) I' C L). rewrite HX in IH. cbv zeta in IH |- *. destruct (cideal x (k v)) as [l f]. destruct IH as [IH1 IH2]. rewrite IH1, <- app_assoc. auto.
    + cbn. rewrite app_nil_r. split; auto. discriminate.
  - cbv zeta. set (y := match x with Some x => x | None => q_x t end).
    assert (exists t1, kinvH (match x with Some x => csetx Xeq xs x | None => xs end) t1 /\ q_x t1 = y /\ q_con t1 = true /\ q_len t1 = entries) as (t1 & I1 & HX1 & C1 & L1).
    { destruct x as [x|]; [exists (mkKS x (q_obj t) (q_con t) (q_len t)); split; auto using setc_inv|exists t; auto]. }
    assert (H := conH_ref _ _ I1). destruct (constraintsH _ _ _ _ _) as [s' r]. destruct H as (t' & I' & HX & CC & _ & H). rewrite HX1 in *. destruct (CC C1) as [C2 L2].
    destruct r as [v|e].
    + assert (E : raw_value y = Some v). { destruct H as (H1 & H2). unfold raw_value, con_value in *. destruct (ccrash y); [congruence|]. destruct (all_some (cvals y)); [destruct H2 as (-> & _); auto|]. destruct H2 as (_ & w & EF & ->). now rewrite EF, L1. }
      rewrite E. specialize (IH v _ t' seen I' C2). rewrite HX in IH. apply IH. congruence.
    + assert (E : raw_value y = None). { destruct H as (EA & EF & _). unfold raw_value, con_value. rewrite EA. destruct (ccrash y); auto. rewrite EF; auto. }
      rewrite E. cbn. rewrite app_nil_r. split; auto. discriminate.
  - exact (IH (x, flag_new (snd xs)) _ seen (flag_inv xs t x I) QC QL).
Qed.
(** if the constraints were evaluated successfully once before (at x0), then after any further use the solve is the optimizer
    run on the objective and constraint functions, and prob.x = result.x at the end; constraint vectors have one length *)
Theorem C103_solve_is_pure_run x0 ops st outs : (exists v, fail = Some v) \/ entries <> 0%nat -> all_some (cvals x0) = Some outs ->
  let xs := krunH Xeq fail true cons G (x0, con_init) (UCon None :: ops) in
  let o := con_solve Xeq fail true cons G st xs in let (l, f) := cideal (fst xs) (st (fst xs)) in
  co_seen o = l /\ match f with Some x => co_end o = Finished /\ fst (co_xs o) = x | None => co_end o <> Finished end.
Proof.
  intros NZ EA xs. assert (E : exists t, kinvH xs t /\ q_con t = true /\ q_len t = entries).
  { unfold xs, krunH. cbn [fold_left].
    assert (H0 : exists t, kinvH (kstepH Xeq fail true cons G (x0, con_init) (UCon None)) t /\ q_con t = true /\ q_len t = entries).
    { cbn [kstepH]. assert (H := conH_ref _ _ (initK_inv x0)). destruct (constraintsH _ _ _ _ _) as [s' r]. cbn [q_x q_con q_len] in H. rewrite EA in H. destruct H as (t' & I' & _ & _ & _ & H).
      exists t'. split; auto. destruct r as [l|e]; [|destruct H; discriminate]. destruct H as (_ & _ & H1 & H2). split; auto. rewrite (H2 eq_refl). now apply (entries_stack x0). }
    destruct H0 as (t0 & I0 & C0 & L0). destruct (runK_inv ops _ _ I0) as (t & I & H). destruct (H C0). exists t. split; auto. split; auto. congruence. }
  destruct E as (t & I & QC & QL). assert (EX : fst xs = q_x t) by (destruct I as ((HX & _) & _); auto).
  unfold con_solve. assert (H := cexec_ideal (st (fst xs)) NZ xs t [] I QC QL). rewrite <- EX in H. exact H.
Qed.
Lemma cideal_length cur st x l : In (SeenC x l) (fst (cideal cur st)) -> length l = entries.
Proof.
  revert cur. induction st as [y| |y k IH|y k IH|y k IH|y k IH]; intros cur H; cbn in H; try tauto.
  - destruct (obj_value y) as [v|]; [|contradiction]. specialize (IH v y). destruct (cideal y (k v)). destruct H as [H|H]; [discriminate|auto].
  - destruct (con_value y) as [v|] eqn:E; [|contradiction]. specialize (IH v y). destruct (cideal y (k v)). destruct H as [H|H]; [|auto].
    injection H as -> ->. unfold con_value in E. destruct (all_some (cvals x)) eqn:EA; [injection E as <-; now apply (entries_stack x)|]. destruct fail; [|discriminate]. injection E as <-. apply repeat_length.
  - destruct (raw_value _); [|contradiction]. eauto.
  - eauto.
Qed.
Theorem C103_one_length x0 ops st outs x l : (exists v, fail = Some v) \/ entries <> 0%nat -> all_some (cvals x0) = Some outs ->
  In (SeenC x l) (co_seen (con_solve Xeq fail true cons G st (krunH Xeq fail true cons G (x0, con_init) (UCon None :: ops)))) -> length l = entries.
Proof.
  intros NZ EA H. assert (P := C103_solve_is_pure_run x0 ops st outs NZ EA). cbv zeta in P. destruct (cideal _ _) as [l' f] eqn:E. destruct P as [P _]. rewrite P in H.
  eapply cideal_length. rewrite E. exact H.
Qed.
Lemma first_failure x1 x2 v k : fail = Some v -> all_some (cvals x1) = None -> all_some (cvals x2) = None -> x1 <> x2 ->
  let p y := length (stack cons (prefix (cvals y))) in
  co_seen (con_solve Xeq fail true cons G (fun _ => CEvalC x1 (fun _ => CEvalC x2 k)) (x1, con_init)) =
    co_seen (cexec Xeq fail true cons G (k (repeat (Fin v) (p x1 + p x2)%nat)) (co_xs (con_solve Xeq fail true cons G (fun _ => CEvalC x1 (fun _ => CEvalC x2 (fun _ => CThrow))) (x1, con_init)))
       [SeenC x1 (repeat (Fin v) (p x1)); SeenC x2 (repeat (Fin v) (p x1 + p x2)%nat)]).
Proof.
  intros EF E1 E2 N p. unfold con_solve. cbn [cexec fst].
  unfold cb_con at 1. assert (H := conH_ref _ _ (setc_inv _ _ x1 (initK_inv x1))). cbv zeta. destruct (constraintsH fail true cons _ _) as [s1 r1] eqn:EH1. destruct H as (t1 & I1 & X1 & _ & N1 & H). cbn [q_x q_con q_len q_obj] in *. rewrite E1 in H.
  destruct r1 as [l|e]; [destruct H as (_ & H & _); discriminate|]. destruct H as (_ & _ & H). destruct (H eq_refl) as [C1 L1]. cbn [Nat.add] in L1. fold (p x1) in L1.
  unfold cb_con at 2. cbv zeta. rewrite EH1. rewrite EF in *. rewrite N1, L1.
  assert (F1 : fst (csetx Xeq (x1, con_init) x1) = x1) by (unfold csetx; destruct (Xeq _ _); auto). rewrite F1 in *.
  set (xs1 := (x1, s1)) in *. unfold cb_con at 1 2. assert (H2 := conH_ref _ _ (setc_inv _ _ x2 I1)). cbv zeta.
  rewrite <- EF in *. destruct (constraintsH fail true cons (G (fst (csetx Xeq xs1 x2))) _) as [s2 r2] eqn:EH2. destruct H2 as (t2 & I2 & X2 & _ & N2 & H2). cbn [q_x q_con q_len q_obj] in *. rewrite E2 in H2.
  destruct r2 as [l|e2]; [destruct H2 as (_ & H2 & _); congruence|]. destruct H2 as (_ & _ & H2). destruct (H2 C1) as [C2 L2]. fold (p x2) in L2. rewrite EF. rewrite N2, L2, L1. cbn [cexec co_xs app]. reflexivity.
Qed.
(** refuted for a problem whose first constraint evaluation fails or raises: the optimizer is then given only as many entries as
    were computed before the failure, and a second failure gives twice as many *)
Theorem C103_first_failure_refuted x1 x2 v : fail = Some v -> all_some (cvals x1) = None -> all_some (cvals x2) = None -> x1 <> x2 ->
  let p y := length (stack cons (prefix (cvals y))) in
  co_seen (con_solve Xeq fail true cons G (fun x0 => CEvalC x0 (fun _ => CEvalC x2 (fun _ => CStop x2))) (x1, con_init)) =
    [SeenC x1 (repeat (Fin v) (p x1)); SeenC x2 (repeat (Fin v) (p x1 + p x2)%nat)].
Proof. intros EF E1 E2 N p. exact (first_failure x1 x2 v (fun _ => CStop x2) EF E1 E2 N). Qed.
End Con.

(** *** hypotheses are met *)
Definition exKG (x i : nat) : fres := match exKF x i with Some o => FOk o | None => if (i =? 0)%nat then FFail else FCrash end.
Definition exKd (i : nat) : nat := match i with 0%nat => 2 | _ => 1 end.
Lemma exKG_dims x i out : (i < length exK)%nat -> exKG x (S i) = FOk out -> length out = exKd i.
Proof. unfold exKG. destruct i as [|[|i]]; cbn; try lia; intros _; [now intros [= <-]|]. destruct (x =? 7)%nat; [discriminate|now intros [= <-]]. Qed.
Lemma exKG_fit i c : nth_error exK i = Some c -> (forall l, c_lhs c = BVec l -> length l = exKd i) /\ (forall l, c_rhs c = BVec l -> length l = exKd i).
Proof. destruct i as [|[|i]]; [intros [= <-]|intros [= <-]|destruct i; discriminate]; cbn; split; intros l E; try discriminate; injection E as <-; auto. Qed.
Example C103_example : any_bound exK = true /\ all_some (cvals exK exKG 2%nat) = Some [[INR 2; 3]; [8]] /\ all_some (cvals exK exKG 7%nat) = None /\ entries exK exKd = 5%nat /\ length (stack exK (prefix (cvals exK exKG 7%nat))) = 4%nat.
Proof. repeat (split; [reflexivity|]). reflexivity. Qed.
Print Assumptions C103_serial_solve. Print Assumptions C103_objective_at_x. Print Assumptions C103_solve_is_pure_run. Print Assumptions C103_one_length. Print Assumptions C103_first_failure_refuted.
