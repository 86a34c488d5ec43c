(** C120: NormalField. *)
From Coq Require Import ZArith Reals List Bool Lia Permutation Sorted.
From Verif Require Import ListAux NormModel.
Import ListNotations.
Open Scope Z_scope.

(** ** Modes and their positions *)
(** the Fourier modes of the series: sine modes exclude (0,0) *)
Definition mode (mpol ntor : Z) (even : bool) (m n : Z) : Prop := 0 <= m <= mpol /\ - ntor <= n <= ntor /\ (m = 0 -> 0 <= n) /\ (even = false -> m <> 0 \/ n <> 0).
Definition pos (mpol ntor : Z) (even : bool) (m n : Z) : Z := (if m =? 0 then n else m * (2 * ntor + 1) + n) + (if even then ntor + mpol * (ntor * 2 + 1) else -1).
Lemma index_some mp nt e m n : mode mp nt e m n -> index mp nt e m n = Some (pos mp nt e m n).
Proof.
  intros (A & B & C & D). unfold index, pos. destruct (m <? 0) eqn:E1; [lia|]. destruct (mp <? m) eqn:E2; [lia|]. cbn [orb]. destruct (nt <? Z.abs n) eqn:E3; [lia|].
  destruct (m =? 0) eqn:E4; destruct (n <? 0) eqn:E5; cbn [andb]; try (exfalso; lia); destruct e; cbn [negb andb]; try (destruct (n =? 0) eqn:E6; [destruct (D eq_refl); lia|]); f_equal; lia.
Qed.
Lemma index_none mp nt e m n : ~ mode mp nt e m n -> index mp nt e m n = None.
Proof.
  intros H. unfold index. destruct ((m <? 0) || (mp <? m)) eqn:E1; [reflexivity|]. destruct (nt <? Z.abs n) eqn:E3; [reflexivity|]. destruct ((m =? 0) && (n <? 0)) eqn:E4; [reflexivity|].
  destruct (negb e && (m =? 0) && (n =? 0)) eqn:E5; [reflexivity|]. exfalso. apply H. unfold mode. destruct e; cbn [negb andb] in E5; repeat split; try lia; try discriminate; intros; lia.
Qed.
Lemma raw_inj nt m n m' n' : 0 <= m -> 0 <= m' -> - nt <= n <= nt -> - nt <= n' <= nt -> (m = 0 -> 0 <= n) -> (m' = 0 -> 0 <= n') ->
  (if m =? 0 then n else m * (2 * nt + 1) + n) = (if m' =? 0 then n' else m' * (2 * nt + 1) + n') -> m = m' /\ n = n'.
Proof.
  intros A A' B B' C C' E. assert (E' : m * (2 * nt + 1) + n = m' * (2 * nt + 1) + n') by (destruct (m =? 0) eqn:E1, (m' =? 0) eqn:E2; nia). clear E.
  assert (m = m') by nia. split; [assumption|subst; lia].
Qed.
Lemma raw_range mp nt m n : 0 <= m <= mp -> - nt <= n <= nt -> (m = 0 -> 0 <= n) -> 0 <= (if m =? 0 then n else m * (2 * nt + 1) + n) <= nt + mp * (nt * 2 + 1).
Proof. intros A B C. destruct (m =? 0) eqn:E; nia. Qed.
Lemma pos_range mp nt e m n : mode mp nt e m n -> if e then nt + mp * (2 * nt + 1) <= pos mp nt e m n < ndof_of false mp nt else 0 <= pos mp nt e m n < ndof_of true mp nt.
Proof.
  intros (A & B & C & D). pose proof (raw_range mp nt m n A B C) as R. unfold pos, ndof_of. destruct e; [lia|]. destruct (D eq_refl); destruct (m =? 0) eqn:E; nia.
Qed.
Lemma pos_inj mp nt e m n e' m' n' : mode mp nt e m n -> mode mp nt e' m' n' -> pos mp nt e m n = pos mp nt e' m' n' -> e = e' /\ m = m' /\ n = n'.
Proof.
  intros H H' E. pose proof (pos_range _ _ _ _ _ H) as R. pose proof (pos_range _ _ _ _ _ H') as R'. unfold ndof_of in *.
  assert (e = e') by (destruct e, e'; lia). subst e'. destruct H as (A & B & C & D), H' as (A' & B' & C' & D'). split; [reflexivity|]. apply (raw_inj nt); try lia. unfold pos in E. destruct e; lia.
Qed.
Lemma pos_surj mp nt (e : bool) k : 0 <= nt -> 0 <= mp -> (if e then nt + mp * (2 * nt + 1) <= k < ndof_of false mp nt else 0 <= k < ndof_of true mp nt) -> exists m n, mode mp nt e m n /\ pos mp nt e m n = k.
Proof.
  intros HN HM R. set (k0 := if e then k - (nt + mp * (nt * 2 + 1)) else k + 1). assert (K : 0 <= k0 <= nt + mp * (2 * nt + 1)) by (unfold k0, ndof_of in *; destruct e; lia). assert (KE : e = false -> 1 <= k0) by (intros ->; unfold k0; lia).
  set (w := 2 * nt + 1). exists ((k0 + nt) / w), ((k0 + nt) mod w - nt). pose proof (Z.div_mod (k0 + nt) w ltac:(lia)) as DM. pose proof (Z.mod_pos_bound (k0 + nt) w ltac:(lia)) as MB.
  set (q := (k0 + nt) / w) in *. set (r := (k0 + nt) mod w) in *. assert (0 <= q) by nia. assert (q <= mp) by nia.
  split.
  - split; [lia|]. split; [lia|]. split; [nia|]. intros E. specialize (KE E). destruct (Z.eq_dec q 0); [right; nia|left; lia].
  - unfold pos. replace (if q =? 0 then r - nt else q * (2 * nt + 1) + (r - nt)) with k0 by (destruct (q =? 0) eqn:E; nia). unfold k0. destruct e; lia.
Qed.
(** get_index_in_dofs numbers the sine modes 0 .. nvns-1 and the cosine modes nvns .. 2 nvns, without gap or collision, and raises for
    anything that is not a mode *)
Theorem C120_positions (mpol ntor : Z) : 0 <= mpol -> 0 <= ntor ->
  (forall e m n, mode mpol ntor e m n <-> exists i, index mpol ntor e m n = Some i) /\
  (forall e m n e' m' n' i, index mpol ntor e m n = Some i -> index mpol ntor e' m' n' = Some i -> e = e' /\ m = m' /\ n = n') /\
  (forall m n i, index mpol ntor false m n = Some i -> 0 <= i < ndof_of true mpol ntor) /\ (forall e m n i, index mpol ntor e m n = Some i -> 0 <= i < ndof_of false mpol ntor) /\
  (forall i, 0 <= i < ndof_of true mpol ntor -> exists m n, index mpol ntor false m n = Some i) /\ (forall i, 0 <= i < ndof_of false mpol ntor -> exists e m n, index mpol ntor e m n = Some i).
Proof.
  intros HM HN. assert (I : forall e m n i, index mpol ntor e m n = Some i -> mode mpol ntor e m n /\ i = pos mpol ntor e m n).
  { intros e m n i H. assert (Q : mode mpol ntor e m n). { destruct (Z_le_dec 0 m), (Z_le_dec m mpol), (Z_le_dec (- ntor) n), (Z_le_dec n ntor); try (rewrite index_none in H; [discriminate|unfold mode; lia]).
      destruct (Z.eq_dec m 0), (Z_lt_dec n 0); try (rewrite index_none in H; [discriminate|unfold mode; lia]); destruct e; try (unfold mode; repeat split; intros; first [lia|discriminate]).
      all: destruct (Z.eq_dec n 0); try (unfold mode; repeat split; intros; first [lia|discriminate]). rewrite index_none in H; [discriminate|]. intros (_ & _ & _ & Q). destruct (Q eq_refl); lia. }
    split; [exact Q|]. rewrite index_some in H by exact Q. congruence. }
  split; [|split; [|split; [|split; [|split]]]].
  - intros e m n. split; [intros H; eexists; apply index_some, H|intros (i & H); apply (I _ _ _ _ H)].
  - intros e m n e' m' n' i H H'. destruct (I _ _ _ _ H) as [A E], (I _ _ _ _ H') as [A' E']. apply (pos_inj mpol ntor); [exact A|exact A'|congruence].
  - intros m n i H. destruct (I _ _ _ _ H) as [A ->]. apply (pos_range _ _ false _ _ A).
  - intros e m n i H. destruct (I _ _ _ _ H) as [A ->]. pose proof (pos_range _ _ _ _ _ A). unfold ndof_of in *. destruct e; nia.
  - intros i R. destruct (pos_surj mpol ntor false i HN HM R) as (m & n & A & E). exists m, n. rewrite index_some by exact A. now f_equal.
  - intros i R. destruct (Z_lt_dec i (ndof_of true mpol ntor)) as [l|l].
    + destruct (pos_surj mpol ntor false i HN HM (conj (proj1 R) l)) as (m & n & A & E). exists false, m, n. rewrite index_some by exact A. now f_equal.
    + destruct (pos_surj mpol ntor true i HN HM) as (m & n & A & E); [unfold ndof_of in *; lia|]. exists true, m, n. rewrite index_some by exact A. now f_equal.
Qed.

(** ** The loops *)
Lemma zrange_In lo hi k : In k (zrange lo hi) <-> lo <= k < hi.
Proof.
  unfold zrange. rewrite in_map_iff. split; [intros (j & <- & H); apply in_seq in H; lia|]. intros H. exists (Z.to_nat (k - lo)). split; [lia|]. apply in_seq. lia.
Qed.
Lemma zrange_NoDup lo hi : NoDup (zrange lo hi).
Proof. unfold zrange. apply FinFun.Injective_map_NoDup; [intros a b H; lia|apply seq_NoDup]. Qed.
Lemma modes_In mp nt m n : In (m, n) (modes mp nt) <-> 0 <= m <= mp /\ - nt <= n <= nt /\ (m = 0 -> 0 <= n).
Proof.
  unfold modes. rewrite filter_In, in_flat_map. cbn [fst snd]. split.
  - intros ((k & K & H) & F). apply in_map_iff in H as (j & [= <- <-] & J). apply zrange_In in K. apply zrange_In in J. destruct (k =? 0) eqn:E; cbn in F; lia.
  - intros (A & B & C). split; [exists m; split; [apply zrange_In; lia|apply in_map, zrange_In; lia]|]. destruct (m =? 0) eqn:E; [|reflexivity]. cbn. destruct (n <? 0) eqn:F; [lia|reflexivity].
Qed.
Lemma NoDup_pairs {A B} (l : list A) (k : list B) : NoDup l -> NoDup k -> NoDup (flat_map (fun a => map (fun b => (a, b)) k) l).
Proof.
  intros L K. induction L as [|a l N L IH]; [constructor|]. cbn [flat_map]. assert (NA : NoDup (map (fun b => (a, b)) k)) by (apply FinFun.Injective_map_NoDup; [intros u w H; congruence|exact K]).
  revert NA. generalize (eq_refl (map (fun b => (a, b)) k)). generalize (map (fun b => (a, b)) k) at 1 3 4. intros k' EK NA.
  assert (SK : forall p, In p k' -> fst p = a) by (subst k'; intros p H; apply in_map_iff in H as (b & <- & _); reflexivity). clear EK.
  induction NA as [|p k' NP NA IHA]; [exact IH|]. cbn [app]. constructor; [|apply IHA; intros q H; apply SK; now right]. rewrite in_app_iff. intros [H|H]; [now apply NP|].
  apply in_flat_map in H as (c & C & H). apply in_map_iff in H as (b & E & _). specialize (SK p (or_introl eq_refl)). subst p. cbn in SK. subst c. now apply N.
Qed.
Lemma modes_NoDup mp nt : NoDup (modes mp nt).
Proof. apply NoDup_filter, NoDup_pairs; apply zrange_NoDup. Qed.

(** a sequence of assignments to distinct positions *)
Lemma assign_spec : forall (l : list (option (Z * R))) f,
  (forall o, In o l -> o <> None) -> NoDup (map (fun o => match o with Some (k, _) => k | None => 0 end) l) ->
  exists f', assign l f = Some f' /\ (forall k v, In (Some (k, v)) l -> f' k = v) /\ (forall k, (forall v, ~ In (Some (k, v)) l) -> f' k = f k).
Proof.
  induction l as [|o l IH]; intros f HS HD; [exists f; split; [reflexivity|]; split; [intros k v []|auto]|].
  destruct o as [[k v]|]; [|exfalso; now apply (HS None (or_introl eq_refl))]. cbn [assign map] in *. inversion HD as [|? ? ND HD']; subst.
  destruct (IH (upd f k v) (fun o H => HS o (or_intror H)) HD') as (f' & E & A & B). exists f'. split; [exact E|]. split.
  - intros k0 v0 [[= <- <-]|H]; [|now apply A]. rewrite B; [unfold upd; now rewrite Z.eqb_refl|]. intros w H. apply ND. apply in_map_iff. exists (Some (k, w)). auto.
  - intros k0 N. rewrite B by (intros w H; apply (N w); now right). unfold upd. destruct (k0 =? k) eqn:Q; [|reflexivity]. exfalso. apply Z.eqb_eq in Q. subst k0. apply (N v). now left.
Qed.
Lemma assign_none : forall l f, In None l -> assign l f = None.
Proof. induction l as [|[[k v]|] l IH]; intros f H; [destruct H| |reflexivity]. destruct H as [H|H]; [discriminate|]. now apply IH. Qed.
Lemma NoDup_fm {A B} (g : A -> list B) (l : list A) : NoDup l -> (forall a, In a l -> NoDup (g a)) -> (forall a b y, In a l -> In b l -> In y (g a) -> In y (g b) -> a = b) -> NoDup (flat_map g l).
Proof.
  induction 1 as [|a l N L IH]; intros HG HD; [constructor|]. cbn [flat_map].
  assert (T : NoDup (flat_map g l)) by (apply IH; [intros; apply HG; now right|intros b c y H1 H2; apply HD; now right]).
  pose proof (HG a (or_introl eq_refl)) as NA. assert (DJ : forall y, In y (g a) -> ~ In y (flat_map g l)).
  { intros y Y H. apply in_flat_map in H as (b & B1 & B2). assert (a = b) by (apply (HD a b y); [now left|now right|exact Y|exact B2]). subst. now apply N. }
  clear IH HG HD. induction NA as [|y k NY NA IHA]; [exact T|]. cbn [app]. constructor; [|apply IHA; intros z Z; apply DJ; now right]. rewrite in_app_iff. intros [H|H]; [now apply NY|]. apply (DJ y); [now left|exact H].
Qed.
Lemma map_fm {A B C} (f : B -> C) (g : A -> list B) l : map f (flat_map g l) = flat_map (fun a => map f (g a)) l.
Proof. induction l as [|a l IH]; [reflexivity|]. cbn [flat_map]. now rewrite map_app, IH. Qed.

(** ** get_dofs *)
(** the entry of array b read for mode (m,n) by a loop that takes the shape from array a *)
Definition read (a b : arr) (m n : Z) : option R :=
  if (nrow a - 1 <? m) || (Z.quot (ncol a - 1) 2 <? n) then Some 0%R else aget b m (Z.quot (ncol a - 1) 2 + n).
Definition src (a : arr) (c : option arr) (e : bool) : option arr := if e then c else Some a.
Definition readable (mp nt : Z) (ss : bool) (a : arr) (c : option arr) : Prop :=
  forall e m n, (e = true -> ss = false) -> mode mp nt e m n -> nrow a - 1 < m \/ Z.quot (ncol a - 1) 2 < n \/ exists b v, src a c e = Some b /\ aget b m (Z.quot (ncol a - 1) 2 + n) = Some v.
Definition key (o : option (Z * R)) : Z := match o with Some (k, _) => k | None => 0 end.
Lemma writes_In mp nt ss a c m n : In (m, n) (modes mp nt) -> readable mp nt ss a c ->
  (forall o, In o (writes mp nt ss a c (m, n)) <-> (m <= nrow a - 1 /\ n <= Z.quot (ncol a - 1) 2 /\ exists e b v, (e = true -> ss = false) /\ mode mp nt e m n /\ src a c e = Some b /\ aget b m (Z.quot (ncol a - 1) 2 + n) = Some v /\ o = Some (pos mp nt e m n, v))) /\
  NoDup (map key (writes mp nt ss a c (m, n))).
Proof.
  intros M RD. apply modes_In in M. destruct M as (MA & MB & MC). unfold writes. set (q := Z.quot (ncol a - 1) 2) in *.
  destruct (nrow a - 1 <? m) eqn:E1; [split; [intros o; split; [intros []|lia]|constructor]|]. destruct (q <? n) eqn:E2; [split; [intros o; split; [intros []|lia]|constructor]|].
  assert (ME : mode mp nt true m n) by (unfold mode; repeat split; intros; first [lia|discriminate]).
  assert (MO : ~ (m = 0 /\ n = 0) -> mode mp nt false m n) by (intros; unfold mode; repeat split; intros; lia).
  assert (LS : (if (m =? 0) && (n =? 0) then [] else [pair_opt (index mp nt false m n) (aget a m (q + n))]) = if (m =? 0) && (n =? 0) then [] else [Some (pos mp nt false m n, match aget a m (q + n) with Some v => v | None => 0%R end)]).
  { destruct ((m =? 0) && (n =? 0)) eqn:E; [reflexivity|]. assert (K : mode mp nt false m n) by (apply MO; lia). rewrite (index_some _ _ _ _ _ K). destruct (RD false m n) as [Q|[Q|(b & v & Q1 & Q2)]]; [discriminate|exact K|lia|unfold q in *; lia|]. cbn in Q1. injection Q1 as <-. fold q in Q2. now rewrite Q2. }
  assert (LC : (if ss then [] else [pair_opt (index mp nt true m n) (match c with Some c0 => aget c0 m (q + n) | None => None end)]) = if ss then [] else [Some (pos mp nt true m n, match c with Some c0 => match aget c0 m (q + n) with Some v => v | None => 0%R end | None => 0%R end)]).
  { destruct ss; [reflexivity|]. rewrite (index_some _ _ _ _ _ ME). destruct (RD true m n) as [Q|[Q|(b & v & Q1 & Q2)]]; [auto|exact ME|lia|unfold q in *; lia|]. cbn in Q1. rewrite Q1. fold q in Q2. now rewrite Q2. }
  cbv zeta. fold q. rewrite LS, LC. clear LS LC. split.
  - intros o. rewrite in_app_iff. split.
    + intros [H|H]; (split; [lia|]; split; [lia|]).
      * destruct ((m =? 0) && (n =? 0)) eqn:E; [destruct H|]. destruct H as [H|[]]. assert (K : mode mp nt false m n) by (apply MO; lia). destruct (RD false m n) as [Q|[Q|(b & v & Q1 & Q2)]]; [discriminate|exact K|lia|unfold q in *; lia|].
        exists false, b, v. split; [discriminate|]. split; [exact K|]. split; [exact Q1|]. split; [exact Q2|]. cbn in Q1. injection Q1 as <-. fold q in Q2. now rewrite Q2 in H.
      * destruct ss; [destruct H|]. destruct H as [H|[]]. destruct (RD true m n) as [Q|[Q|(b & v & Q1 & Q2)]]; [auto|exact ME|lia|unfold q in *; lia|].
        exists true, b, v. split; [auto|]. split; [exact ME|]. split; [exact Q1|]. split; [exact Q2|]. cbn in Q1. rewrite Q1 in H. fold q in Q2. now rewrite Q2 in H.
    + intros (_ & _ & e & b & v & ES & K & S1 & S2 & ->). destruct e.
      * right. rewrite (ES eq_refl). left. cbn in S1. rewrite S1. now rewrite S2.
      * left. cbn in S1. injection S1 as <-. rewrite S2. destruct ((m =? 0) && (n =? 0)) eqn:E; [|now left]. destruct K as (_ & _ & _ & K). destruct (K eq_refl); lia.
  - destruct ((m =? 0) && (n =? 0)) eqn:E; destruct ss; cbn [app map key]; repeat constructor; auto. assert (K : mode mp nt false m n) by (apply MO; lia).
    intros [H|[]]. destruct (pos_inj _ _ _ _ _ _ _ _ ME K H) as (? & _). discriminate.
Qed.
Definition expected (a : arr) (c : option arr) (e : bool) (m n : Z) : R :=
  if (nrow a - 1 <? m) || (Z.quot (ncol a - 1) 2 <? n) then 0%R else
  match src a c e with Some b => match aget b m (Z.quot (ncol a - 1) 2 + n) with Some v => v | None => 0%R end | None => 0%R end.
Lemma get_dofs_spec mp nt ss a c : readable mp nt ss a c -> exists f, get_dofs mp nt ss a c = Some f /\
  forall e m n, (e = true -> ss = false) -> mode mp nt e m n -> f (pos mp nt e m n) = expected a c e m n.
Proof.
  intros RD. unfold get_dofs. set (l := flat_map _ _).
  assert (IN : forall o, In o l -> exists e m n b v, (e = true -> ss = false) /\ m <= nrow a - 1 /\ n <= Z.quot (ncol a - 1) 2 /\ mode mp nt e m n /\ src a c e = Some b /\ aget b m (Z.quot (ncol a - 1) 2 + n) = Some v /\ o = Some (pos mp nt e m n, v)).
  { intros o H. apply in_flat_map in H as ((m, n) & M & H). destruct (writes_In mp nt ss a c m n M RD) as [W _]. apply W in H. destruct H as (A & B & e & b & v & ES & K & S1 & S2 & E). exists e, m, n, b, v. auto 10. }
  destruct (assign_spec l (fun _ => 0%R)) as (f & E & A & B).
  - intros o H ->. destruct (IN _ H) as (e & m & n & b & v & Q). destruct Q as (_ & _ & _ & _ & _ & _ & Q). discriminate.
  - fold key. unfold l. rewrite map_fm. apply NoDup_fm; [apply modes_NoDup|intros (m, n) M; apply (writes_In mp nt ss a c m n M RD)|].
    intros (m, n) (m', n') y M M' H H'. apply in_map_iff in H as (o & <- & H). apply in_map_iff in H' as (o' & E & H').
    apply (proj1 (writes_In mp nt ss a c m n M RD)) in H. apply (proj1 (writes_In mp nt ss a c m' n' M' RD)) in H'.
    destruct H as (_ & _ & e & b & v & _ & K & _ & _ & ->). destruct H' as (_ & _ & e' & b' & v' & _ & K' & _ & _ & ->). cbn [key] in E. destruct (pos_inj _ _ _ _ _ _ _ _ K K' (eq_sym E)) as (_ & -> & ->). reflexivity.
  - exists f. split; [exact E|]. intros e m n ES K. assert (M : In (m, n) (modes mp nt)) by (apply modes_In; destruct K as (K1 & K2 & K3 & _); auto).
    unfold expected. destruct ((nrow a - 1 <? m) || (Z.quot (ncol a - 1) 2 <? n)) eqn:Q.
    + apply B. intros v H. destruct (IN _ H) as (e' & m' & n' & b & v' & _ & L1 & L2 & K' & _ & _ & P). injection P as P _. destruct (pos_inj _ _ _ _ _ _ _ _ K K' P) as (_ & -> & ->). lia.
    + destruct (RD e m n ES K) as [H|[H|(b & v & S1 & S2)]]; [lia|lia|]. rewrite S1, S2. apply A. unfold l. apply in_flat_map. exists (m, n). split; [exact M|]. apply (writes_In mp nt ss a c m n M RD).
      split; [lia|]. split; [lia|]. exists e, b, v. auto 10.
Qed.
(** if an entry cannot be read, the construction raises *)
Lemma get_dofs_none mp nt ss a c e m n : (e = true -> ss = false) -> mode mp nt e m n -> m <= nrow a - 1 -> n <= Z.quot (ncol a - 1) 2 ->
  match src a c e with Some b => aget b m (Z.quot (ncol a - 1) 2 + n) | None => None end = None -> get_dofs mp nt ss a c = None.
Proof.
  intros ES K L1 L2 N. apply assign_none. apply in_flat_map. exists (m, n). split; [apply modes_In; destruct K as (K1 & K2 & K3 & _); auto|]. unfold writes. set (q := Z.quot (ncol a - 1) 2) in *.
  destruct (nrow a - 1 <? m) eqn:E1; [lia|]. destruct (q <? n) eqn:E2; [lia|]. apply in_app_iff. destruct e.
  - right. rewrite (ES eq_refl). left. unfold pair_opt. cbn in N. rewrite N. now destruct (index mp nt true m n).
  - left. destruct ((m =? 0) && (n =? 0)) eqn:E; [destruct K as (_ & _ & _ & K); destruct (K eq_refl); lia|]. left. cbn in N. rewrite N. unfold pair_opt. now destruct (index mp nt false m n).
Qed.

(** ** Reading modes *)
Lemma check_mode mp nt e m n : mode mp nt e m n -> check_mn mp nt m n = true.
Proof. intros (A & B & C & _). unfold check_mn. destruct (m =? 0) eqn:E; lia. Qed.
Lemma get_vns_mode s m n : mode (mpol s) (ntor s) false m n -> get_vns s m n = Some (x s (pos (mpol s) (ntor s) false m n)).
Proof. intros K. unfold get_vns. now rewrite (check_mode _ _ _ _ _ K), (index_some _ _ _ _ _ K). Qed.
Lemma get_vnc_mode s m n : mode (mpol s) (ntor s) true m n -> get_vnc s m n = Some (if ss s then 0%R else x s (pos (mpol s) (ntor s) true m n)).
Proof. intros K. unfold get_vnc. now rewrite (check_mode _ _ _ _ _ K), (index_some _ _ _ _ _ K). Qed.
Definition get (s : nf) (e : bool) (m n : Z) : option R := if e then get_vnc s m n else get_vns s m n.
Lemma get_mode s e m n : (e = true -> ss s = false) -> mode (mpol s) (ntor s) e m n -> get s e m n = Some (x s (pos (mpol s) (ntor s) e m n)).
Proof. intros H K. destruct e; unfold get; [rewrite get_vnc_mode by exact K; now rewrite (H eq_refl)|now apply get_vns_mode]. Qed.

Lemma quot_odd k : 0 <= k -> Z.quot (2 * k + 1 - 1) 2 = k.
Proof. intros. replace (2 * k + 1 - 1) with (k * 2) by lia. apply Z.quot_mul. lia. Qed.
Lemma wrap_in n i : 0 <= i < n -> wrap n i = Some i.
Proof. intros. unfold wrap. destruct (0 <=? i) eqn:A, (i <? n) eqn:B; cbn; try lia; reflexivity. Qed.
Lemma wrap_neg n i : - n <= i < 0 -> wrap n i = Some (i + n).
Proof. intros. unfold wrap. destruct (0 <=? i) eqn:A; cbn; try lia. destruct (- n <=? i) eqn:C, (i <? 0) eqn:D; cbn; try lia; reflexivity. Qed.
Lemma wrap_out n i : 0 <= n -> i < - n \/ n <= i -> wrap n i = None.
Proof. intros. unfold wrap. destruct (0 <=? i) eqn:A, (i <? n) eqn:B, (- n <=? i) eqn:C, (i <? 0) eqn:D; cbn; try lia; reflexivity. Qed.

(** What the constructor makes of arrays of any (odd-width) shape with (imp+1) rows and 2 int+1 columns, centred at n = 0: modes in both
    ranges are taken over; modes with m or n above the array are 0; but modes with n below the array are read from the other end of the row
    (numpy's negative index), and if the array is much too narrow the constructor raises *)
Theorem C120_constructor (mp nt imp int : Z) (a : arr) : 0 <= mp -> 0 <= nt -> 0 <= int -> nrow a = imp + 1 -> ncol a = 2 * int + 1 -> 0 <= imp ->
  (nt <= 3 * int + 1 -> exists s, new mp nt true (Some a) None = Some s /\ forall m n, mode mp nt false m n ->
     get_vns s m n = Some (if (m <=? imp) && (n <=? int) then if - int <=? n then cell a m (int + n) else cell a m (3 * int + 1 + n) else 0%R)) /\
  (3 * int + 1 < nt -> 1 <= mp -> 1 <= imp -> new mp nt true (Some a) None = None).
Proof.
  intros HM HN HI NR NC HIM. assert (Q : Z.quot (ncol a - 1) 2 = int) by (rewrite NC; apply quot_odd, HI).
  assert (AG : forall m n, 0 <= m <= imp -> - 3 * int - 1 <= n <= int -> aget a m (int + n) = Some (if - int <=? n then cell a m (int + n) else cell a m (3 * int + 1 + n))).
  { intros m n A B. unfold aget. rewrite (wrap_in (nrow a) m) by lia. destruct (- int <=? n) eqn:E; [rewrite wrap_in by lia; reflexivity|]. rewrite wrap_neg by lia. do 2 f_equal. lia. }
  split.
  - intros L. assert (RD : readable mp nt true a None). { intros e m n ES (A & B & C & D). destruct e; [specialize (ES eq_refl); discriminate|]. rewrite Q, NR. destruct (Z_le_dec m imp); [|lia]. destruct (Z_le_dec n int); [|lia]. right. right. eexists a, _. split; [reflexivity|]. apply AG; lia. }
    destruct (get_dofs_spec _ _ _ _ _ RD) as (f & E & F). unfold new, refresh. cbn [mpol ntor ss vns vnc]. rewrite E. eexists. split; [reflexivity|]. intros m n K. rewrite get_vns_mode by exact K. cbn [mpol ntor x]. rewrite F; [|discriminate|exact K].
    f_equal. unfold expected, src. rewrite Q, NR. destruct K as (A & B & _ & _). destruct (m <=? imp) eqn:E1; destruct (n <=? int) eqn:E2; cbn [andb].
    2,3,4: (destruct (imp + 1 - 1 <? m) eqn:E3, (int <? n) eqn:E4; cbn [orb]; try reflexivity; lia).
    destruct (imp + 1 - 1 <? m) eqn:E3; [lia|]. destruct (int <? n) eqn:E4; [lia|]. cbn [orb]. rewrite AG by lia. reflexivity.
  - intros L P1 P2. unfold new, refresh. cbn [mpol ntor ss vns vnc]. rewrite (get_dofs_none mp nt true a None false 1 (- nt)); [reflexivity|discriminate| | | |].
    + unfold mode. repeat split; intros; lia.
    + lia.
    + lia.
    + cbn. rewrite Q. unfold aget. rewrite (wrap_out (ncol a)) by lia. now destruct (wrap (nrow a) 1).
Qed.

(** ** Arrays and dofs in agreement *)
Definition shaped (mp nt : Z) (a : arr) : Prop := nrow a = mp + 1 /\ ncol a = 2 * nt + 1.
(** the arrays have the resolution of the object, and the dofs are what the arrays say *)
Definition synced (s : nf) : Prop := 0 <= mpol s /\ 0 <= ntor s /\ shaped (mpol s) (ntor s) (vns s) /\ (ss s = false -> exists c, vnc s = Some c /\ shaped (mpol s) (ntor s) c) /\
  forall e m n, (e = true -> ss s = false) -> mode (mpol s) (ntor s) e m n -> exists b, src (vns s) (vnc s) e = Some b /\ get s e m n = Some (cell b m (ntor s + n)).
Lemma refresh_synced s : 0 <= mpol s -> 0 <= ntor s -> shaped (mpol s) (ntor s) (vns s) -> (ss s = false -> exists c, vnc s = Some c /\ shaped (mpol s) (ntor s) c) ->
  exists f, refresh s = Some (set_x f s) /\ synced (set_x f s).
Proof.
  intros HM HN (SR & SC) HC. assert (Q : Z.quot (ncol (vns s) - 1) 2 = ntor s) by (rewrite SC; apply quot_odd, HN).
  assert (SRC : forall e, (e = true -> ss s = false) -> exists b, src (vns s) (vnc s) e = Some b /\ shaped (mpol s) (ntor s) b) by (intros [] ES; [apply HC; auto|exists (vns s); split; [reflexivity|split; assumption]]).
  assert (AG : forall b m n, shaped (mpol s) (ntor s) b -> 0 <= m <= mpol s -> - ntor s <= n <= ntor s -> aget b m (ntor s + n) = Some (cell b m (ntor s + n))) by (intros b m n (R1 & R2) A B; unfold aget; rewrite !wrap_in by lia; reflexivity).
  assert (RD : readable (mpol s) (ntor s) (ss s) (vns s) (vnc s)). { intros e m n ES (A & B & _ & _). right. right. destruct (SRC e ES) as (b & S1 & S2). eexists b, _. split; [exact S1|]. rewrite Q. apply AG; assumption. }
  destruct (get_dofs_spec _ _ _ _ _ RD) as (f & E & F). exists f. unfold refresh. rewrite E. split; [reflexivity|]. unfold set_x. split; [exact HM|]. split; [exact HN|]. split; [split; assumption|]. split; [exact HC|].
  intros e m n ES K. cbn [mpol ntor ss vns vnc] in *. destruct (SRC e ES) as (b & S1 & S2). exists b. split; [exact S1|]. rewrite get_mode by assumption. cbn [mpol ntor x]. rewrite F by assumption. unfold expected. rewrite Q, SR, S1.
  destruct K as (A & B & _ & _). destruct (mpol s + 1 - 1 <? m) eqn:E1; [lia|]. destruct (ntor s <? n) eqn:E2; [lia|]. cbn [orb]. now rewrite AG.
Qed.
Definition set (s : nf) (e : bool) (m n : Z) (v : R) : option nf := if e then set_vnc s m n v else set_vns s m n v.
(** a new object, with no arrays given or with arrays of its own resolution, is in agreement *)
Theorem C120_new (mp nt : Z) (sym : bool) (a c : option arr) : 0 <= mp -> 0 <= nt -> (forall b, a = Some b -> shaped mp nt b) -> (forall b, c = Some b -> shaped mp nt b) ->
  exists s, new mp nt sym a c = Some s /\ synced s /\ mpol s = mp /\ ntor s = nt /\ ss s = sym /\ (forall b, a = Some b -> vns s = b) /\ (sym = false -> forall b, c = Some b -> vnc s = Some b) /\
    (a = None -> forall m n, mode mp nt false m n -> get s false m n = Some 0%R) /\ (c = None -> forall m n, mode mp nt true m n -> get s true m n = Some 0%R).
Proof.
  intros HM HN HA HC. unfold new. set (a' := match a with None => _ | Some b => b end). set (c' := match c with None => _ | Some b => Some b end).
  destruct (refresh_synced (NF mp nt sym a' c' (fun _ => 0%R))) as (f & E & S1); cbn [mpol ntor ss vns vnc]; auto.
  - unfold a'. destruct a as [b|]; [now apply HA|split; reflexivity].
  - intros Q. unfold c'. destruct c as [b|]; [exists b; split; [reflexivity|now apply HC]|]. rewrite Q. eexists. split; [reflexivity|]. split; reflexivity.
  - eexists. split; [exact E|]. split; [exact S1|]. cbn. repeat split; try (intros b ->; reflexivity); try (intros _ b ->; reflexivity).
    + intros -> m n K. destruct S1 as (_ & _ & _ & _ & S1). destruct (S1 false m n) as (b & B1 & B2); [discriminate|exact K|]. cbn in B1. injection B1 as <-. exact B2.
    + intros -> m n K. destruct sym eqn:Y; [unfold get; rewrite get_vnc_mode by exact K; reflexivity|]. destruct S1 as (_ & _ & _ & _ & S1). destruct (S1 true m n) as (b & B1 & B2); [reflexivity|exact K|]. cbn in B1. injection B1 as <-. exact B2.
Qed.
Lemma aset_cell a m n v mp nt : shaped mp nt a -> 0 <= m <= mp -> - nt <= n <= nt ->
  exists b, aset a m (n + nt) v = Some b /\ shaped mp nt b /\ forall k l, cell b k l = if (k =? m) && (l =? n + nt) then v else cell a k l.
Proof. intros (R1 & R2) A B. unfold aset. rewrite !wrap_in by lia. eexists. split; [reflexivity|]. split; [split; assumption|reflexivity]. Qed.
Lemma iia mp nt m n e : mode mp nt e m n -> index_in_array mp nt m n = Some (m, n + nt).
Proof. intros (A & B & C & _). unfold index_in_array. destruct (m <? 0) eqn:E1; [lia|]. destruct (mp <? m) eqn:E2; [lia|]. cbn [orb]. destruct (nt <? Z.abs n) eqn:E3; [lia|]. destruct (m =? 0) eqn:E4, (n <? 0) eqn:E5; cbn [andb]; try reflexivity. lia. Qed.
(** in agreement, set_vns / set_vnc change the mode they name, no other, and keep the agreement *)
Theorem C120_set_get (s : nf) (e : bool) (m n : Z) (v : R) : synced s -> (e = true -> ss s = false) -> mode (mpol s) (ntor s) e m n ->
  exists s', set s e m n v = Some s' /\ synced s' /\ get s' e m n = Some v /\ mpol s' = mpol s /\ ntor s' = ntor s /\ ss s' = ss s /\
    forall e' m' n', (e' = true -> ss s = false) -> mode (mpol s) (ntor s) e' m' n' -> (e', m', n') <> (e, m, n) -> get s' e' m' n' = get s e' m' n'.
Proof.
  intros (HM & HN & SV & SC & SY) ES K. assert (A := proj1 K). assert (B := proj1 (proj2 K)). destruct e.
  - destruct (SC (ES eq_refl)) as (c & VC & SCc). destruct (aset_cell c m n v _ _ SCc A B) as (b & E1 & S1 & C1). unfold set, set_vnc. rewrite (check_mode _ _ _ _ _ K), (iia _ _ _ _ _ K), (ES eq_refl), VC, E1.
    destruct (refresh_synced (NF (mpol s) (ntor s) false (vns s) (Some b) (x s))) as (f & E & SY2); cbn [mpol ntor ss vns vnc]; auto; [intros _; exists b; auto|].
    eexists. split; [exact E|]. split; [exact SY2|]. cbn [set_x mpol ntor ss vns vnc] in *. destruct SY2 as (_ & _ & _ & _ & SY2). cbn [set_x mpol ntor ss vns vnc] in SY2. split.
    + destruct (SY2 true m n ltac:(auto) K) as (b' & B1 & B2). cbn in B1. injection B1 as <-. rewrite B2, C1. replace (ntor s + n =? n + ntor s) with true by (symmetry; apply Z.eqb_eq; lia). now rewrite Z.eqb_refl.
    + split; [reflexivity|]. split; [reflexivity|]. split; [symmetry; auto|]. intros e' m' n' ES' K' NE. destruct (SY2 e' m' n' ltac:(auto) K') as (b' & B1 & B2). destruct (SY e' m' n' (fun _ => ES eq_refl) K') as (b0 & D1 & D2). rewrite B2, D2. f_equal. destruct e'.
      * cbn in B1, D1. injection B1 as <-. rewrite VC in D1. injection D1 as <-. rewrite C1. destruct (m' =? m) eqn:Q1, (ntor s + n' =? n + ntor s) eqn:Q2; cbn [andb]; try reflexivity. exfalso. apply NE. assert (m' = m) by lia. assert (n' = n) by lia. congruence.
      * cbn in B1, D1. congruence.
  - destruct (aset_cell (vns s) m n v _ _ SV A B) as (b & E1 & S1 & C1). unfold set, set_vns. rewrite (check_mode _ _ _ _ _ K), (iia _ _ _ _ _ K), E1.
    destruct (refresh_synced (NF (mpol s) (ntor s) (ss s) b (vnc s) (x s))) as (f & E & SY2); cbn [mpol ntor ss vns vnc]; auto.
    eexists. split; [exact E|]. split; [exact SY2|]. cbn [set_x mpol ntor ss vns vnc] in *. destruct SY2 as (_ & _ & _ & _ & SY2). cbn [set_x mpol ntor ss vns vnc] in SY2. split.
    + destruct (SY2 false m n ltac:(discriminate) K) as (b' & B1 & B2). cbn in B1. injection B1 as <-. rewrite B2, C1. replace (ntor s + n =? n + ntor s) with true by (symmetry; apply Z.eqb_eq; lia). now rewrite Z.eqb_refl.
    + split; [reflexivity|]. split; [reflexivity|]. split; [reflexivity|]. intros e' m' n' ES' K' NE. destruct (SY2 e' m' n' ES' K') as (b' & B1 & B2). destruct (SY e' m' n' ES' K') as (b0 & D1 & D2). rewrite B2, D2. f_equal. destruct e'.
      * cbn in B1, D1. congruence.
      * cbn in B1, D1. injection B1 as <-. injection D1 as <-. rewrite C1. destruct (m' =? m) eqn:Q1, (ntor s + n' =? n + ntor s) eqn:Q2; cbn [andb]; try reflexivity. exfalso. apply NE. assert (m' = m) by lia. assert (n' = n) by lia. congruence.
Qed.
(** setting the dofs (x) does not reach the arrays: the next set_vns / set_vnc throws away everything that was set through x *)
Theorem C120_x_update_lost (s : nf) (f : Z -> R) (e : bool) (m n : Z) (v : R) : synced s -> (e = true -> ss s = false) -> mode (mpol s) (ntor s) e m n ->
  exists s', set (set_x f s) e m n v = Some s' /\ forall e' m' n', (e' = true -> ss s = false) -> mode (mpol s) (ntor s) e' m' n' -> (e', m', n') <> (e, m, n) ->
    get (set_x f s) e' m' n' = Some (f (pos (mpol s) (ntor s) e' m' n')) /\ get s' e' m' n' = get s e' m' n'.
Proof.
  intros H ES K. destruct (C120_set_get s e m n v H ES K) as (s' & E & _ & _ & _ & _ & _ & F). exists s'. split.
  - rewrite <- E. destruct e; reflexivity.
  - intros e' m' n' ES' K' NE. split; [|now apply F]. now rewrite get_mode.
Qed.
(** and get_vns_asarray / get_vnc_asarray, get_real_space_field do not see x at all; they also leave out the modes with the largest m *)
Theorem C120_asarray (s : nf) (f : Z -> R) : synced s -> get_vns_asarray (set_x f s) = get_vns_asarray s /\ nrow (get_vns_asarray s) = mpol s /\ ncol (get_vns_asarray s) = 2 * ntor s + 1 /\
  forall m n, 0 <= m < mpol s -> 0 <= n < 2 * ntor s + 1 -> cell (get_vns_asarray s) m n = cell (vns s) m n.
Proof.
  intros (HM & HN & (R1 & R2) & _). split; [reflexivity|]. unfold get_vns_asarray, slice, bound. cbn [nrow ncol cell]. rewrite R1, R2. replace (ntor s - ntor s) with 0 by lia.
  destruct (mpol s <? 0) eqn:E1; [lia|]. destruct (ntor s + ntor s + 1 <? 0) eqn:E2; [lia|]. cbn [Z.ltb Z.compare]. split; [lia|]. split; [lia|]. intros m n _ _. f_equal; lia.
Qed.
(** set_vns_asarray with an array of the object's own resolution sets all modes below the largest m, but sets those with m = mpol to 0,
    after which set_vns raises for them *)
Theorem C120_set_asarray (s : nf) (a : arr) : 0 <= mpol s -> 0 <= ntor s -> ss s = true -> shaped (mpol s) (ntor s) a ->
  exists s', set_vns_asarray s a = Some s' /\ forall m n, mode (mpol s) (ntor s) false m n ->
    get_vns s' m n = Some (if m =? mpol s then 0%R else cell a m (ntor s + n)) /\ (m = mpol s -> forall v, set_vns s' m n v = None).
Proof.
  intros HM HN HS (R1 & R2). unfold set_vns_asarray. set (b := slice _ _ _ _). assert (SB : nrow b = mpol s /\ ncol b = 2 * ntor s + 1 /\ forall i j, cell b i j = cell a i j).
  { unfold b, slice, bound. cbn [nrow ncol cell]. rewrite R1, R2. replace (ntor s - ntor s) with 0 by lia. destruct (mpol s <? 0) eqn:E1; [lia|]. destruct (ntor s + ntor s + 1 <? 0) eqn:E2; [lia|]. cbn [Z.ltb Z.compare]. split; [lia|]. split; [lia|]. intros i j. f_equal; lia. }
  clearbody b. destruct SB as (B1 & B2 & B3). assert (Q : Z.quot (ncol b - 1) 2 = ntor s) by (rewrite B2; apply quot_odd, HN).
  assert (AG : forall m n, 0 <= m < mpol s -> - ntor s <= n <= ntor s -> aget b m (ntor s + n) = Some (cell a m (ntor s + n))) by (intros; unfold aget; rewrite !wrap_in by lia; now rewrite B3).
  assert (RD : readable (mpol s) (ntor s) (ss s) b (vnc s)). { intros e m n ES (A & B & _ & _). destruct e; [specialize (ES eq_refl); congruence|]. rewrite Q, B1. destruct (Z_lt_dec m (mpol s)); [|lia]. right. right. eexists b, _. split; [reflexivity|]. apply AG; lia. }
  destruct (get_dofs_spec _ _ _ _ _ RD) as (f & E & F). unfold refresh. cbn [mpol ntor ss vns vnc]. rewrite E. eexists. split; [reflexivity|]. intros m n K. rewrite get_vns_mode by exact K. cbn [mpol ntor x]. split.
  - rewrite F; [|discriminate|exact K]. f_equal. unfold expected. rewrite Q, B1. cbn [src]. destruct K as (A & B & _ & _). destruct (m =? mpol s) eqn:E1; [destruct (mpol s - 1 <? m) eqn:E2; [reflexivity|lia]|].
    destruct (mpol s - 1 <? m) eqn:E2; [lia|]. destruct (ntor s <? n) eqn:E3; [lia|]. cbn [orb]. now rewrite AG by lia.
  - intros -> v. unfold set_vns. cbn [mpol ntor]. rewrite (check_mode _ _ _ _ _ K), (iia _ _ _ _ _ K). cbn [vns]. unfold aset. rewrite (wrap_out (nrow b)) by lia. reflexivity.
Qed.

(** ** change_resolution *)
Lemma mode_min mp nt mp' nt' e m n : mode (Z.min mp' mp) (Z.min nt' nt) e m n <-> mode mp nt e m n /\ mode mp' nt' e m n.
Proof. unfold mode. split; [intros (A & B & C & D); repeat split; intros; auto; lia|intros ((A & B & C & D) & (A' & B' & _ & _)); repeat split; intros; auto; lia]. Qed.
Theorem C120_change_resolution (s : nf) (mp nt : Z) : 0 <= mp -> 0 <= nt -> exists s', change_resolution s mp nt = Some s' /\ mpol s' = mp /\ ntor s' = nt /\ ss s' = ss s /\ vns s' = vns s /\ vnc s' = vnc s /\
  forall e m n, (e = true -> ss s = false) -> mode mp nt e m n -> (mode (mpol s) (ntor s) e m n -> get s' e m n = get s e m n) /\ (~ mode (mpol s) (ntor s) e m n -> get s' e m n = Some 0%R).
Proof.
  intros HM HN. unfold change_resolution. set (w := fun p : Z * Z => _ ++ _). set (L := modes _ _).
  assert (W : forall m n, In (m, n) L -> (forall o, In o (w (m, n)) <-> exists e, (e = true -> ss s = false) /\ mode (Z.min mp (mpol s)) (Z.min nt (ntor s)) e m n /\ o = Some (pos mp nt e m n, x s (pos (mpol s) (ntor s) e m n))) /\ NoDup (map key (w (m, n)))).
  { intros m n H. apply modes_In in H. destruct H as (A & B & C). assert (ME : mode (Z.min mp (mpol s)) (Z.min nt (ntor s)) true m n) by (unfold mode; repeat split; intros; first [lia|discriminate]).
    assert (MO : 0 < m \/ 0 < n -> mode (Z.min mp (mpol s)) (Z.min nt (ntor s)) false m n) by (intros; unfold mode; repeat split; intros; lia).
    assert (E1 : (if (0 <? m) || (0 <? n) then [pair_opt (index mp nt false m n) (get_vns s m n)] else []) = if (0 <? m) || (0 <? n) then [Some (pos mp nt false m n, x s (pos (mpol s) (ntor s) false m n))] else []).
    { destruct ((0 <? m) || (0 <? n)) eqn:E; [|reflexivity]. destruct (proj1 (mode_min _ _ _ _ _ _ _) (MO ltac:(lia))) as [K K']. now rewrite (index_some _ _ _ _ _ K'), get_vns_mode. }
    assert (E2 : (if ss s then [] else [pair_opt (index mp nt true m n) (get_vnc s m n)]) = if ss s then [] else [Some (pos mp nt true m n, x s (pos (mpol s) (ntor s) true m n))]).
    { destruct (ss s) eqn:E; [reflexivity|]. destruct (proj1 (mode_min _ _ _ _ _ _ _) ME) as [K K']. rewrite (index_some _ _ _ _ _ K'), get_vnc_mode by exact K. now rewrite E. }
    unfold w. cbn [fst snd]. rewrite E1, E2. clear E1 E2. split.
    - intros o. rewrite in_app_iff. split.
      + intros [H|H]; [destruct ((0 <? m) || (0 <? n)) eqn:E; [|destruct H]; destruct H as [<-|[]]; exists false; split; [discriminate|split; [apply MO; lia|reflexivity]]|destruct (ss s) eqn:E; [destruct H|]; destruct H as [<-|[]]; exists true; auto].
      + intros (e & ES & K & ->). destruct e; [right; rewrite (ES eq_refl); now left|left]. destruct ((0 <? m) || (0 <? n)) eqn:E; [now left|]. destruct K as (_ & _ & _ & K). destruct (K eq_refl); lia.
    - destruct ((0 <? m) || (0 <? n)) eqn:E; destruct (ss s); cbn [app map key]; repeat constructor; auto. intros [H|[]].
      destruct (proj1 (mode_min _ _ _ _ _ _ _) ME) as [_ K]. destruct (proj1 (mode_min _ _ _ _ _ _ _) (MO ltac:(lia))) as [_ K']. destruct (pos_inj _ _ _ _ _ _ _ _ K K' H) as (? & _). discriminate. }
  assert (IN : forall o, In o (flat_map w L) <-> exists e m n, (e = true -> ss s = false) /\ mode (Z.min mp (mpol s)) (Z.min nt (ntor s)) e m n /\ o = Some (pos mp nt e m n, x s (pos (mpol s) (ntor s) e m n))).
  { intros o. rewrite in_flat_map. split; [intros ((m, n) & M & H); apply (proj1 (W m n M)) in H; destruct H as (e & H); exists e, m, n; exact H|]. intros (e & m & n & ES & K & E). assert (M : In (m, n) L) by (apply modes_In; destruct K as (K1 & K2 & K3 & _); auto).
    exists (m, n). split; [exact M|]. apply (proj1 (W m n M)). exists e. auto. }
  destruct (assign_spec (flat_map w L) (fun _ => 0%R)) as (f & E & A & B).
  - intros o H ->. apply IN in H. destruct H as (e & m & n & _ & _ & H). discriminate.
  - fold key. rewrite map_fm. apply NoDup_fm; [apply modes_NoDup|intros (m, n) M; apply (W m n M)|]. intros (m, n) (m', n') y M M' H H'. apply in_map_iff in H as (o & <- & H). apply in_map_iff in H' as (o' & E & H').
    apply (proj1 (W m n M)) in H. apply (proj1 (W m' n' M')) in H'. destruct H as (e & _ & K & ->). destruct H' as (e' & _ & K' & ->). cbn [key] in E.
    destruct (pos_inj mp nt e m n e' m' n') as (_ & -> & ->); [apply (proj1 (mode_min _ _ _ _ _ _ _) K)|apply (proj1 (mode_min _ _ _ _ _ _ _) K')|now symmetry|reflexivity].
  - rewrite E. eexists. split; [reflexivity|]. cbn [mpol ntor ss vns vnc]. split; [reflexivity|]. split; [reflexivity|]. split; [reflexivity|]. split; [reflexivity|]. split; [reflexivity|].
    intros e m n ES K. split.
    + intros K0. rewrite (get_mode _ e m n) by assumption. rewrite (get_mode s e m n) by assumption. cbn [mpol ntor x]. f_equal. apply A. apply IN. exists e, m, n. split; [exact ES|]. split; [now apply mode_min|reflexivity].
    + intros K0. rewrite get_mode by assumption. cbn [mpol ntor x]. f_equal. apply B. intros v H. apply IN in H. destruct H as (e' & m' & n' & _ & K' & P). injection P as P _. destruct (proj1 (mode_min _ _ _ _ _ _ _) K') as [K1 K2].
      destruct (pos_inj _ _ _ _ _ _ _ _ K K2 P) as (-> & -> & ->). now apply K0.
Qed.

(** ** Arrays that do not have the resolution of the object (a padded array from a SPEC file, or any array after change_resolution):
    set_vns takes the column n + ntor although the array is centred at column int: it changes mode n + ntor - int *)
Theorem C120_set_shifted (s : nf) (int m n : Z) (v : R) : ss s = true -> 0 <= int -> 0 <= ntor s <= 3 * int + 1 -> mpol s + 1 <= nrow (vns s) -> ncol (vns s) = 2 * int + 1 ->
  1 <= m <= mpol s -> - ntor s <= n <= ntor s -> n + ntor s <= 2 * int -> - ntor s <= n + ntor s - int <= ntor s ->
  exists s', set_vns s m n v = Some s' /\ get_vns s' m (n + ntor s - int) = Some v /\ (ntor s <> int -> - int <= n <= int -> get_vns s' m n = Some (cell (vns s) m (int + n))).
Proof.
  intros HS HI HN HR HC HM B L L'. assert (K : mode (mpol s) (ntor s) false m n) by (unfold mode; repeat split; intros; lia). assert (K' : mode (mpol s) (ntor s) false m (n + ntor s - int)) by (unfold mode; repeat split; intros; lia).
  unfold set_vns. rewrite (check_mode _ _ _ _ _ K), (iia _ _ _ _ _ K). unfold aset. rewrite !wrap_in by lia. set (b := Arr _ _ _).
  assert (Q : Z.quot (ncol b - 1) 2 = int) by (cbn [b ncol]; rewrite HC; apply quot_odd, HI).
  assert (RD : readable (mpol s) (ntor s) (ss s) b (vnc s)). { intros e m' n' ES (A & B' & _ & _). destruct e; [specialize (ES eq_refl); congruence|]. rewrite Q. destruct (Z_le_dec n' int); [|lia]. right. right. exists b. unfold aget. cbn [b nrow ncol]. rewrite HC, (wrap_in (nrow (vns s)) m') by lia.
    destruct (Z_le_dec (- int) n'); [rewrite wrap_in by lia|rewrite wrap_neg by lia]; eexists; (split; reflexivity). }
  destruct (get_dofs_spec _ _ _ _ _ RD) as (f & E & F). unfold refresh. cbn [mpol ntor ss vns vnc]. rewrite E. eexists. split; [reflexivity|]. rewrite !get_vns_mode by assumption. cbn [mpol ntor x]. rewrite !F by (try discriminate; assumption).
  unfold expected. rewrite Q. cbn [src]. assert (NB : nrow b = nrow (vns s)) by reflexivity. rewrite NB. destruct (nrow (vns s) - 1 <? m) eqn:E1; [lia|]. cbn [orb]. split.
  - destruct (int <? n + ntor s - int) eqn:E2; [lia|]. unfold aget. cbn [b nrow ncol]. rewrite HC, !wrap_in by lia. cbn [cell b]. replace (int + (n + ntor s - int) =? n + ntor s) with true by (symmetry; apply Z.eqb_eq; lia). now rewrite Z.eqb_refl.
  - intros NE BI. destruct (int <? n) eqn:E2; [lia|]. unfold aget. cbn [b nrow ncol]. rewrite HC, !wrap_in by lia. cbn [cell b]. replace (int + n =? n + ntor s) with false by (symmetry; apply Z.eqb_neq; lia). now rewrite andb_false_r.
Qed.
(** in particular, after one more toroidal mode is added, set_vns(m, n, v) sets mode (m, n+1) and leaves (m, n) alone *)
Theorem C120_set_after_change_refuted (s : nf) (m n : Z) (v : R) : synced s -> ss s = true -> 1 <= m <= mpol s -> - ntor s <= n < ntor s ->
  exists s1 s2, change_resolution s (mpol s) (ntor s + 1) = Some s1 /\ get_vns s1 m n = get_vns s m n /\ set_vns s1 m n v = Some s2 /\ get_vns s2 m (n + 1) = Some v /\ get_vns s2 m n = get_vns s m n.
Proof.
  intros H HS A B. destruct H as (HM & HN & (R1 & R2) & _ & SY). assert (K : mode (mpol s) (ntor s) false m n) by (unfold mode; repeat split; intros; lia). assert (K1 : mode (mpol s) (ntor s + 1) false m n) by (unfold mode; repeat split; intros; lia).
  destruct (C120_change_resolution s (mpol s) (ntor s + 1) HM ltac:(lia)) as (s1 & E & M1 & N1 & Y1 & V1 & _ & F).
  destruct (C120_set_shifted s1 (ntor s) m n v) as (s2 & E2 & G1 & G2); rewrite ?Y1, ?N1, ?M1, ?V1; try assumption; try lia.
  exists s1, s2. destruct (F false m n ltac:(discriminate) K1) as [F1 _]. split; [exact E|]. split; [exact (F1 K)|]. split; [exact E2|]. rewrite N1, V1 in *. split; [replace (n + 1) with (n + (ntor s + 1) - ntor s) by lia; exact G1|].
  rewrite G2 by lia. destruct (SY false m n ltac:(discriminate) K) as (b & B1 & B2). cbn in B1, B2. injection B1 as <-. now rewrite B2.
Qed.

(** ** Names *)
Lemma insert_perm {A} (k : A -> Z) a l : Permutation (insert k a l) (a :: l).
Proof. induction l as [|b l IH]; [reflexivity|]. cbn. destruct (k a <=? k b); [reflexivity|]. rewrite IH. apply perm_swap. Qed.
Lemma sort_perm {A} (k : A -> Z) l : Permutation (sort_by k l) l.
Proof. induction l as [|a l IH]; [reflexivity|]. cbn. rewrite insert_perm. now constructor. Qed.
Lemma insert_sorted {A} (k : A -> Z) a l : StronglySorted (fun u w => k u <= k w) l -> StronglySorted (fun u w => k u <= k w) (insert k a l).
Proof.
  induction 1 as [|b l S IH F]; cbn; [repeat constructor|]. destruct (k a <=? k b) eqn:E.
  - constructor; [constructor; assumption|]. constructor; [lia|]. eapply Forall_impl; [|exact F]. intros; cbn in *; lia.
  - constructor; [exact IH|]. apply Forall_forall. intros c H. apply (Permutation_in _ (insert_perm k a l)) in H. destruct H as [<-|H]; [lia|]. rewrite Forall_forall in F. auto.
Qed.
Lemma sort_sorted {A} (k : A -> Z) l : StronglySorted (fun u w => k u <= k w) (sort_by k l).
Proof. induction l as [|a l IH]; [constructor|]. cbn. now apply insert_sorted. Qed.
Lemma sorted_unique : forall l l' : list Z, StronglySorted Z.lt l -> StronglySorted Z.lt l' -> (forall k, In k l <-> In k l') -> l = l'.
Proof.
  induction l as [|a l IH]; intros l' S S' H.
  - destruct l' as [|b l']; [reflexivity|]. exfalso. apply (proj2 (H b)). now left.
  - destruct l' as [|b l']; [exfalso; apply (proj1 (H a)); now left|]. inversion S as [|? ? S1 F1]; inversion S' as [|? ? S2 F2]; subst. rewrite Forall_forall in F1, F2.
    assert (a = b). { destruct (proj1 (H a) (or_introl eq_refl)) as [Q|Q]; [now symmetry|]. destruct (proj2 (H b) (or_introl eq_refl)) as [Q'|Q']; [exact Q'|]. specialize (F1 _ Q'). specialize (F2 _ Q). lia. }
    subst b. f_equal. apply IH; [assumption|assumption|]. intros k. split; intros Q.
    + destruct (proj1 (H k) (or_intror Q)) as [->|]; [|assumption]. specialize (F1 _ Q). lia.
    + destruct (proj2 (H k) (or_intror Q)) as [->|]; [|assumption]. specialize (F2 _ Q). lia.
Qed.
Lemma zrange_sorted : forall n lo, StronglySorted Z.lt (map (fun k => lo + Z.of_nat k) (seq 0 n)).
Proof.
  induction n as [|n IH]; intros lo; [constructor|]. cbn [seq map]. rewrite <- seq_shift, map_map. constructor.
  - specialize (IH (lo + 1)). erewrite map_ext; [exact IH|]. intros k. lia.
  - apply Forall_forall. intros k H. apply in_map_iff in H as (j & <- & _). lia.
Qed.
Lemma strict {A} (k : A -> Z) l : StronglySorted (fun u w => k u <= k w) l -> NoDup (map k l) -> StronglySorted Z.lt (map k l).
Proof.
  induction 1 as [|a l S IH F]; intros N; cbn in *; [constructor|]. inversion N; subst. constructor; [auto|]. rewrite Forall_forall in F. apply Forall_forall. intros y H. apply in_map_iff in H as (b & <- & B). specialize (F b B).
  assert (k a <> k b) by (intros Q; apply H1; rewrite Q; now apply in_map). lia.
Qed.
Lemma names_helper_spec mp nt e : 0 <= mp -> 0 <= nt -> exists l, names_helper mp nt e = Some l /\ Z.of_nat (length l) = ndof_of true mp nt + (if e then 1 else 0) /\
  forall m n, mode mp nt e m n -> nth_error l (Z.to_nat (pos mp nt e m n - if e then ndof_of true mp nt else 0)) = Some (e, m, n).
Proof.
  intros HM HN. unfold names_helper. set (ms := filter _ _). assert (MS : forall m n, In (m, n) ms <-> mode mp nt e m n).
  { intros m n. unfold ms. rewrite filter_In, modes_In. cbn [fst snd]. unfold mode. destruct e; cbn [negb andb]; split; intros H.
    - destruct H as ((A & B & C) & _). repeat split; intros; auto; try lia; discriminate.
    - destruct H as (A & B & C & _). auto.
    - destruct H as ((A & B & C) & D). repeat split; intros; auto; try lia.
    - destruct H as (A & B & C & D). split; [auto|]. destruct (D eq_refl); destruct (m =? 0) eqn:E1, (n =? 0) eqn:E2; cbn; try reflexivity; lia. }
  assert (NM : NoDup ms) by (apply NoDup_filter, modes_NoDup). set (il := map _ ms).
  set (ps := map (fun p => (pos mp nt e (fst p) (snd p), (e, fst p, snd p))) ms). assert (EI : il = map Some ps).
  { unfold il, ps. rewrite map_map. apply map_ext_in. intros (m, n) H. apply MS in H. cbn [fst snd]. now rewrite (index_some _ _ _ _ _ H). }
  replace (forallb _ il) with true by (symmetry; rewrite EI; apply forallb_forall; intros o H; apply in_map_iff in H as (q & <- & _); reflexivity).
  replace (flat_map _ il) with ps by (rewrite EI; clear; induction ps as [|q l IH]; [reflexivity|cbn; now f_equal]).
  set (L := sort_by fst ps). assert (PL : Permutation L ps) by apply sort_perm. set (b := if e then ndof_of true mp nt else 0). set (cnt := ndof_of true mp nt + (if e then 1 else 0)).
  assert (KEYS : map fst L = map (fun k => b + Z.of_nat k) (seq 0 (Z.to_nat cnt))).
  { apply sorted_unique; [|apply zrange_sorted|].
    - apply strict; [apply sort_sorted|]. apply (Permutation_NoDup (l := map fst ps)); [symmetry; now apply Permutation_map|]. unfold ps. rewrite map_map. cbn [fst].
      assert (NF0 : NoDup (flat_map (fun p => [pos mp nt e (fst p) (snd p)]) ms)).
      { apply NoDup_fm; [exact NM|intros; repeat constructor; auto|]. intros (m, n) (m', n') y H H' [<-|[]] [Q|[]]. apply MS in H, H'. cbn in Q. destruct (pos_inj _ _ _ _ _ _ _ _ H H' (eq_sym Q)) as (_ & -> & ->). reflexivity. }
      replace (map (fun x0 => pos mp nt e (fst x0) (snd x0)) ms) with (flat_map (fun p => [pos mp nt e (fst p) (snd p)]) ms); [exact NF0|]. clearbody ms. clear. induction ms as [|q l IH]; [reflexivity|cbn; now f_equal].
    - intros k. split.
      + intros H. apply (Permutation_in _ (Permutation_map fst PL)) in H. unfold ps in H. rewrite map_map in H. apply in_map_iff in H as ((m, n) & <- & H). apply MS in H. pose proof (pos_range _ _ _ _ _ H) as R. cbn [fst snd].
        apply in_map_iff. exists (Z.to_nat (pos mp nt e m n - b)). unfold b, cnt, ndof_of in *. destruct e; (split; [lia|apply in_seq; lia]).
      + intros H. apply in_map_iff in H as (j & <- & J). apply in_seq in J. destruct (pos_surj mp nt e (b + Z.of_nat j) HN HM) as (m & n & K & E); [unfold b, cnt, ndof_of in *; destruct e; nia|].
        apply (Permutation_in _ (Permutation_sym (Permutation_map fst PL))). unfold ps. rewrite map_map. apply in_map_iff. exists (m, n). split; [exact E|now apply MS]. }
  assert (CN : 0 <= cnt) by (unfold cnt, ndof_of; destruct e; nia).
  exists (map snd L). split; [reflexivity|]. split.
  - rewrite map_length, <- (map_length fst), KEYS, map_length, seq_length. fold cnt. lia.
  - intros m n K. fold b. pose proof (pos_range _ _ _ _ _ K) as R. set (j := Z.to_nat (pos mp nt e m n - b)). assert (J : (j < Z.to_nat cnt)%nat) by (unfold j, b, cnt, ndof_of in *; destruct e; lia). assert (JB : b + Z.of_nat j = pos mp nt e m n) by (unfold j, b, ndof_of in *; destruct e; lia).
    assert (NK : nth_error (map fst L) j = Some (b + Z.of_nat j)). { rewrite KEYS. rewrite (map_nth_error _ j (seq 0 (Z.to_nat cnt)) (d := j)); [reflexivity|]. rewrite nth_error_nth' with (d := 0%nat) by (rewrite seq_length; exact J). now rewrite seq_nth. }
    destruct (nth_error L j) as [[k q]|] eqn:EL.
    + rewrite (map_nth_error fst _ _ EL) in NK. cbn in NK. injection NK as NK. rewrite (map_nth_error snd _ _ EL). cbn. f_equal. apply nth_error_In in EL. apply (Permutation_in _ PL) in EL. unfold ps in EL. apply in_map_iff in EL as ((m', n') & Q & H'). apply MS in H'. cbn in Q. injection Q as Q1 Q2.
      destruct (pos_inj _ _ _ _ _ _ _ _ H' K) as (_ & -> & ->); [congruence|now symmetry].
    + exfalso. apply nth_error_None in EL. assert (nth_error (map fst L) j = None) by (apply nth_error_None; now rewrite map_length). congruence.
Qed.
(** the i-th name is the name of the mode whose position is i *)
Theorem C120_names (mp nt : Z) (sym : bool) : 0 <= mp -> 0 <= nt -> exists l, names mp nt sym = Some l /\ Z.of_nat (length l) = ndof_of sym mp nt /\
  forall e m n i, (e = true -> sym = false) -> index mp nt e m n = Some i -> nth_error l (Z.to_nat i) = Some (e, m, n).
Proof.
  intros HM HN. destruct (names_helper_spec mp nt false HM HN) as (l0 & E0 & L0 & F0). destruct (names_helper_spec mp nt true HM HN) as (l1 & E1 & L1 & F1). unfold names. rewrite E0.
  assert (I : forall e m n i, index mp nt e m n = Some i -> mode mp nt e m n /\ i = pos mp nt e m n). { intros e m n i H. destruct (C120_positions mp nt HM HN) as (A & _). assert (K : mode mp nt e m n) by (apply A; eauto). split; [exact K|]. rewrite index_some in H by exact K. congruence. }
  destruct sym; [exists (l0 ++ [])|rewrite E1; exists (l0 ++ l1)]; (split; [reflexivity|]).
  - rewrite app_nil_r. split; [lia|]. intros e m n i ES H. destruct (I _ _ _ _ H) as [K ->]. destruct e; [specialize (ES eq_refl); discriminate|]. rewrite <- (F0 m n K). do 2 f_equal. lia.
  - rewrite app_length, Nat2Z.inj_add, L0, L1. split; [unfold ndof_of; lia|]. intros e m n i ES H. destruct (I _ _ _ _ H) as [K ->]. pose proof (pos_range _ _ _ _ _ K) as R. destruct e.
    + assert (Z.of_nat (length l0) <= pos mp nt true m n) by (rewrite L0; unfold ndof_of in *; lia). rewrite nth_error_app2 by lia. rewrite <- (F1 m n K). do 2 f_equal. lia.
    + rewrite nth_error_app1 by lia. rewrite <- (F0 m n K). do 2 f_equal. lia.
Qed.

(** ** A concrete case: mpol = 2, ntor = 1 *)
Definition ex_arr : arr := Arr 3 3 (fun i j => IZR (10 * i + j)).
Example C120_ex : exists s, new 2 1 true (Some ex_arr) None = Some s /\ synced s /\ ndof s = 7 /\ mode 2 1 false 2 (-1) /\ get_vns s 2 (-1) = Some 20%R /\ (exists s', set_vns s 2 (-1) 5%R = Some s' /\ get_vns s' 2 (-1) = Some 5%R) /\
  (exists s', set_vns_asarray s ex_arr = Some s' /\ get_vns s' 2 (-1) = Some 0%R) /\ names 1 1 false = Some [(false, 0, 1); (false, 1, -1); (false, 1, 0); (false, 1, 1); (true, 0, 0); (true, 0, 1); (true, 1, -1); (true, 1, 0); (true, 1, 1)].
Proof.
  destruct (C120_new 2 1 true (Some ex_arr) None) as (s & E & S1 & M1 & N1 & Y1 & V1 & _); [lia|lia|intros b [= <-]; split; reflexivity|discriminate|]. exists s. split; [exact E|]. split; [exact S1|]. split; [unfold ndof; rewrite M1, N1, Y1; reflexivity|].
  assert (K : mode 2 1 false 2 (-1)) by (unfold mode; repeat split; intros; lia). split; [exact K|]. split.
  - destruct S1 as (_ & _ & _ & _ & SY). rewrite M1, N1 in SY. destruct (SY false 2 (-1) ltac:(discriminate) K) as (b & B1 & B2). cbn in B1, B2. injection B1 as <-. rewrite B2, (V1 _ eq_refl). reflexivity.
  - split; [|split; [|reflexivity]].
    + destruct (C120_set_get s false 2 (-1) 5%R S1) as (s' & A & _ & B & _); [discriminate|now rewrite M1, N1|]. exists s'. split; [exact A|exact B].
    + destruct (C120_set_asarray s ex_arr) as (s' & A & B); rewrite ?M1, ?N1; try lia; try assumption; [split; reflexivity|]. rewrite M1, N1 in B. exists s'. split; [exact A|]. apply (B 2 (-1) K).
Qed.
