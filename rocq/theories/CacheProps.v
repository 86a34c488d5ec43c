(** C72: the caches of curves and surfaces: when cached values are right, and exactly how they go wrong. *)
From Coq Require Import List Arith Bool Lia Reals Lra.
From Verif Require Import CacheModel.
Import ListNotations.

Section Props.
Variable St : Type.
Variable spec : key -> quantity St.
Notation obj := (obj St). Notation query := (query St spec). Notation history := (history St spec). Notation set_members := (set_members St). Notation put := (put St spec). Notation map_of := (map_of St spec).

(** ** Specification: the value of a quantity computed from the data members alone, no cache *)
Fixpoint denote (val : key -> arr) (p : prog) : arr := match p with Done a => a | Ask k c => denote val (c (val k)) end.
Fixpoint value (depth : nat) (s : St) (k : key) : arr := match depth with 0 => [] | S d => denote (value d s) (body (spec k) s) end.
(** bodies only ask for quantities of smaller rank: no cyclic definitions *)
Inductive asks_below (rank : key -> nat) (r : nat) : prog -> Prop :=
  | ab_done a : asks_below rank r (Done a)
  | ab_ask k c : rank k < r -> (forall a, asks_below rank r (c a)) -> asks_below rank r (Ask k c).
Definition finite (a : arr) : Prop := forall x, In x a -> x <> None.
(** the results an ideal object without caches would give *)
Fixpoint ideal (depth : nat) (s : St) (ops : list (op St)) : list arr := match ops with
  | [] => [] | OSet s' :: ops => ideal depth s' ops | OWrite _ _ :: ops => ideal depth s ops | OQuery k :: ops => value depth s k :: ideal depth s ops end.
Definition no_writes (ops : list (op St)) : Prop := forall k a, ~ In (OWrite k a) ops.

Variable rank : key -> nat.
Hypothesis acyclic : forall k s, asks_below rank (rank k) (body (spec k) s).

Lemma value_stable d : forall k s, rank k < d -> value d s k = value (S (rank k)) s k.
Proof.
  assert (G : forall r k s d d', rank k < r -> rank k < d -> rank k < d' -> value d s k = value d' s k).
  { induction r as [|r IH]; intros k s [|a] [|b] Hr Ha Hb; try lia. cbn [value]. assert (A := acyclic k s). induction A as [x|j c J A IHA]; cbn [denote]; [reflexivity|].
    rewrite (IH j s a b) by lia. apply IHA. }
  intros k s H. apply (G (S (rank k))); lia.
Qed.
Lemma upd_same m k e : upd m k e k = Some e. Proof. unfold upd. now rewrite Nat.eqb_refl. Qed.
Lemma upd_other m k e j : j <> k -> upd m k e j = m j. Proof. intros H. unfold upd. destruct (Nat.eqb_spec j k); [contradiction|reflexivity]. Qed.
Lemma put_same k e o : map_of k (put k e o) k = Some e.
Proof. unfold map_of, put. destruct (persistent (spec k)); cbn; apply upd_same. Qed.
Lemma put_other k e o j : j <> k -> map_of j (put k e o) j = map_of j o j.
Proof. intros H. unfold map_of, put. destruct (persistent (spec k)), (persistent (spec j)); cbn; auto using upd_other. Qed.
Lemma put_members k e o : members (put k e o) = members o. Proof. unfold put. destruct (persistent (spec k)); reflexivity. Qed.
Lemma dims_eqb_refl d : dims_eqb d d = true. Proof. unfold dims_eqb. destruct (list_eq_dec Nat.eq_dec d d); auto. Qed.
Lemma accumulate_finite old new : finite old -> accumulate old new = new.
Proof. revert new. induction old as [|o old IH]; intros [|n new] H; cbn; auto. rewrite IH by (intros x I; apply H; now right). destruct o; cbn; [reflexivity|]. exfalso. apply (H None); [now left|reflexivity]. Qed.
Lemma zeros_finite d : finite (zeros d). Proof. intros x H. apply repeat_spec in H. now subst. Qed.

(** ** Cached values are right *)
Section Right.
(** the data members the object ever has: same shapes, persistent quantities do not depend on them, no nan or inf *)
Variable Ok : St -> Prop.
Variable depth : nat.
Hypothesis deep : forall k, rank k < depth.
Hypothesis same_shapes : forall k s s', Ok s -> Ok s' -> dims (spec k) s = dims (spec k) s'.
Hypothesis persistent_constant : forall k s s', persistent (spec k) = true -> Ok s -> Ok s' -> value depth s k = value depth s' k.
Hypothesis numbers : forall k s, accumulates (spec k) = true -> Ok s -> finite (value depth s k).
Definition good (o : obj) : Prop := Ok (members o) /\ forall k e, map_of k o k = Some e ->
  edims e = dims (spec k) (members o) /\ (accumulates (spec k) = true -> finite (edata e)) /\ (estatus e = true -> edata e = value depth (members o) k).
Lemma good_put k e o : good o -> edims e = dims (spec k) (members o) -> (accumulates (spec k) = true -> finite (edata e)) -> (estatus e = true -> edata e = value depth (members o) k) -> good (put k e o).
Proof.
  intros (G0 & G) A B C. split; [now rewrite put_members|]. intros j e' H. rewrite put_members. destruct (Nat.eq_dec j k) as [->|N].
  - rewrite put_same in H. injection H as <-. auto.
  - rewrite put_other in H by auto. auto.
Qed.
Lemma query_good fuel : forall k o, rank k < fuel -> good o -> exists o', query fuel k o = Some (value depth (members o) k, o') /\ good o' /\ members o' = members o.
Proof.
  induction fuel as [|fuel IH]; intros k o R G; [lia|]. cbn [CacheModel.query].
  set (loc := match map_of k o k with Some e => e | None => _ end).
  assert (LG : edims loc = dims (spec k) (members o) /\ (accumulates (spec k) = true -> finite (edata loc)) /\ (estatus loc = true -> edata loc = value depth (members o) k)).
  { unfold loc. destruct (map_of k o k) as [e|] eqn:Ek; [now apply (proj2 G)|]. cbn. split; [reflexivity|split; [intros _; apply zeros_finite|discriminate]]. }
  destruct LG as (L1 & L2 & L3). assert (G1 : good (put k loc o)) by (apply good_put; auto).
  destruct (estatus loc) eqn:Es.
  - exists (put k loc o). rewrite L3 by reflexivity. now rewrite put_members.
  - rewrite L1, dims_eqb_refl.
    assert (RUN : forall p o1, good o1 -> asks_below rank (rank k) p -> exists o2, run St (query fuel) p o1 = Some (denote (value depth (members o1)) p, o2) /\ good o2 /\ members o2 = members o1).
    { intros p o1 H1 A. revert o1 H1. induction A as [a|j c J A IHA]; intros o1 H1; cbn [run denote]; [eauto|].
      destruct (IH j o1 ltac:(lia) H1) as (o2 & -> & H2 & M2). destruct (IHA (value depth (members o1) j) o2 H2) as (o3 & E3 & H3 & M3). exists o3. rewrite E3, M2 in *. auto. }
    destruct (RUN _ _ G1 (acyclic k (members o))) as (o2 & -> & G2 & M2). rewrite put_members in *.
    assert (V : denote (value depth (members o)) (body (spec k) (members o)) = value depth (members o) k).
    { rewrite (value_stable depth k) by apply deep. rewrite <- (value_stable (S depth) k) by (specialize (deep k); lia). reflexivity. }
    rewrite V. assert (W : write (accumulates (spec k)) (edata loc) (value depth (members o) k) = value depth (members o) k).
    { unfold write. destruct (accumulates (spec k)); [apply accumulate_finite; auto|reflexivity]. }
    rewrite W. eexists. split; [reflexivity|]. rewrite put_members. split; [|exact M2]. apply good_put; cbn; rewrite ?M2; auto. intros A. apply numbers; auto. apply (proj1 G).
Qed.
Lemma good_set s o : good o -> Ok s -> good (set_members s o).
Proof.
  intros (G0 & G) Hs. split; [exact Hs|]. intros k e H. unfold CacheModel.set_members, invalidate_cache in *. cbn [members] in *. unfold CacheModel.map_of in H. cbn [CacheModel.cache CacheModel.pcache] in H.
  specialize (G k). unfold CacheModel.map_of in G. destruct (persistent (spec k)) eqn:P.
  - destruct (G e H) as (A & B & C). split; [rewrite A; now apply same_shapes|split; [exact B|]]. intros S. rewrite (C S). now apply persistent_constant.
  - destruct (cache o k) as [e'|] eqn:Ec; [|discriminate]. injection H as <-. cbn. destruct (G e' eq_refl) as (A & B & C). split; [rewrite A; now apply same_shapes|split; [exact B|discriminate]].
Qed.
Theorem C72_every_query_is_fresh s ops : Ok s -> (forall s', In (OSet s') ops -> Ok s') -> no_writes ops ->
  exists o, history depth ops (fresh St s) = Some (ideal depth s ops, o).
Proof.
  intros Hs Ho NW. assert (G : good (fresh St s)) by (split; [exact Hs|intros k e H; unfold CacheModel.map_of in H; cbn in H; destruct (persistent (spec k)); discriminate]).
  change s with (members (fresh St s)) at 2. revert G. generalize (fresh St s). induction ops as [|a ops IH]; intros o G; [eexists; reflexivity|].
  assert (IH' := IH ltac:(intros; apply Ho; now right) ltac:(intros k b I; apply (NW k b); now right)).
  destruct a as [s'|k|k b]; cbn [CacheModel.history ideal].
  - destruct (IH' (set_members s' o)) as (o' & E); [apply good_set; auto; apply Ho; now left|]. exists o'. exact E.
  - destruct (query_good depth k o (deep k) G) as (o' & -> & G' & M). destruct (IH' o' G') as (o'' & E). rewrite E, M. eexists. reflexivity.
  - exfalso. apply (NW k b). now left.
Qed.
End Right.

(** ** A persistent quantity keeps its first value, whatever happens to the dofs *)
Definition stuck (k : key) (a : arr) (o : obj) : Prop := exists e, map_of k o k = Some e /\ estatus e = true /\ edata e = a.
Lemma stuck_put k a j e o : stuck k a o -> (j = k -> estatus e = true /\ edata e = a) -> stuck k a (put j e o).
Proof. intros (e' & A & B & C) H. destruct (Nat.eq_dec k j) as [->|N]; [exists e; rewrite put_same; destruct (H eq_refl); auto|]. exists e'. rewrite put_other; auto. Qed.
Lemma history_inv (I : obj -> Prop) fuel : (forall j o v o', I o -> query fuel j o = Some (v, o') -> I o') -> (forall s o, I o -> I (set_members s o)) ->
  forall ops o l o', no_writes ops -> I o -> history fuel ops o = Some (l, o') -> I o'.
Proof.
  intros HQ HS. induction ops as [|b ops IH]; intros o l o' NW S H; [now injection H as _ <-|]. assert (NW' : no_writes ops) by (intros i c X; apply (NW i c); now right).
  destruct b as [s|i|i c]; cbn [CacheModel.history] in H.
  - apply (IH (set_members s o) l o' NW'); auto.
  - destruct (query fuel i o) as [[w ow]|] eqn:Eq; [|discriminate]. destruct (history fuel ops ow) as [[l' o'']|] eqn:Eh; [|discriminate]. injection H as _ ->. apply (IH ow l' o' NW'); eauto.
  - exfalso. apply (NW i c). now left.
Qed.
Lemma stuck_query k a fuel : forall j o v o', stuck k a o -> query fuel j o = Some (v, o') -> stuck k a o' /\ (j = k -> v = a).
Proof.
  induction fuel as [|fuel IH]; intros j o v o' S; [discriminate|]. cbn [CacheModel.query]. set (loc := match map_of j o j with Some e => e | None => _ end).
  assert (RUN : forall p o1 v o2, stuck k a o1 -> run St (query fuel) p o1 = Some (v, o2) -> stuck k a o2).
  { induction p as [b|i c IHc]; intros o1 w o2 S1; cbn [run]; [now intros [= _ <-]|]. destruct (query fuel i o1) as [[b o3]|] eqn:Eq; [|discriminate]. apply IHc. now apply (IH i o1 b). }
  assert (LK : j = k -> estatus loc = true /\ edata loc = a). { intros ->. unfold loc. destruct S as (e & -> & B & C). auto. }
  destruct (estatus loc) eqn:Es.
  - intros [= <- <-]. split; [apply stuck_put; [exact S|intros H; rewrite Es; auto]|]. intros H. now destruct (LK H).
  - assert (NJ : j <> k) by (intros H; now destruct (LK H)). destruct (dims_eqb _ _); [|discriminate]. destruct (run _ _ _ _) as [[w o2]|] eqn:Er; [|discriminate]. intros [= <- <-]. split; [|contradiction].
    apply stuck_put; [|contradiction]. refine (RUN _ _ _ _ _ Er). apply stuck_put; [exact S|contradiction].
Qed.
Lemma query_stuck fuel k o a o1 : query fuel k o = Some (a, o1) -> stuck k a o1.
Proof.
  destruct fuel as [|f]; [discriminate|]. cbn [CacheModel.query]. set (loc := match map_of k o k with Some e => e | None => _ end). destruct (estatus loc) eqn:Es.
  - intros [= <- <-]. exists loc. rewrite put_same. auto.
  - destruct (dims_eqb _ _); [|discriminate]. destruct (run _ _ _ _) as [[w ow]|]; [|discriminate]. intros [= <- <-]. eexists. rewrite put_same. split; [reflexivity|auto].
Qed.
Lemma stuck_set k a s o : persistent (spec k) = true -> stuck k a o -> stuck k a (set_members s o).
Proof. intros P (e & A & B). exists e. unfold CacheModel.map_of in *. rewrite P in *. auto. Qed.
Theorem C72_persistent_values_are_never_recomputed k fuel o a o1 ops l o2 fuel' v o3 : persistent (spec k) = true ->
  query fuel k o = Some (a, o1) -> no_writes ops -> history fuel ops o1 = Some (l, o2) -> query fuel' k o2 = Some (v, o3) -> v = a.
Proof.
  intros P Q NW H Q'. apply query_stuck in Q. assert (S2 : stuck k a o2).
  { refine (history_inv (stuck k a) fuel _ _ ops o1 l o2 NW Q H); [intros j o' w ow S Eq; now apply (stuck_query k a fuel j o' w ow)|intros; now apply stuck_set]. }
  exact (proj2 (stuck_query k a fuel' k o2 v o3 S2 Q') eq_refl).
Qed.

(** ** The shape of an array is fixed at its first use *)
Section Shapes.
Variables (k : key) (d : list nat).
Hypothesis NP : persistent (spec k) = false.
Definition shaped (o : obj) : Prop := exists e, cache o k = Some e /\ edims e = d /\ (estatus e = true -> dims (spec k) (members o) = d).
Lemma query_members fuel : forall j o v o', query fuel j o = Some (v, o') -> members o' = members o.
Proof.
  induction fuel as [|fuel IH]; intros j o v o'; [discriminate|]. cbn [CacheModel.query]. set (loc := match map_of j o j with Some e => e | None => _ end).
  assert (RUN : forall p o1 v o2, run St (query fuel) p o1 = Some (v, o2) -> members o2 = members o1).
  { induction p as [b|i c IHc]; intros o1 w o2; cbn [run]; [now intros [= _ <-]|]. destruct (query fuel i o1) as [[b o3]|] eqn:Eq; [|discriminate]. intros H. rewrite (IHc _ _ _ _ H). now apply (IH i o1 b). }
  destruct (estatus loc); [intros [= _ <-]; apply put_members|]. destruct (dims_eqb _ _); [|discriminate]. destruct (run _ _ _ _) as [[w o2]|] eqn:Er; [|discriminate]. intros [= _ <-].
  rewrite put_members, (RUN _ _ _ _ Er). apply put_members.
Qed.
Lemma map_of_k o : map_of k o k = cache o k. Proof. unfold CacheModel.map_of. now rewrite NP. Qed.
Lemma shaped_put j e o : shaped o -> (j = k -> edims e = d /\ (estatus e = true -> dims (spec k) (members o) = d)) -> shaped (put j e o).
Proof.
  intros (e' & A & B & C) H. unfold shaped. rewrite <- map_of_k in *. rewrite put_members. destruct (Nat.eq_dec j k) as [E|N].
  - subst j. exists e. specialize (H eq_refl). split; [|exact H]. apply put_same.
  - exists e'. rewrite put_other by auto. auto.
Qed.
Lemma shaped_query fuel : forall j o v o', shaped o -> query fuel j o = Some (v, o') -> shaped o'.
Proof.
  induction fuel as [|fuel IH]; intros j o v o' S; [discriminate|]. cbn [CacheModel.query]. set (loc := match map_of j o j with Some e => e | None => _ end).
  assert (RUN : forall p o1 v o2, shaped o1 -> run St (query fuel) p o1 = Some (v, o2) -> shaped o2 /\ members o2 = members o1).
  { induction p as [b|i c IHc]; intros o1 w o2 S1; cbn [run]; [now intros [= _ <-]|]. destruct (query fuel i o1) as [[b o3]|] eqn:Eq; [|discriminate]. intros H. rewrite <- (query_members _ _ _ _ _ Eq). apply (IHc b o3 w); [|exact H]. now apply (IH i o1 b). }
  assert (LK : j = k -> edims loc = d /\ (estatus loc = true -> dims (spec k) (members o) = d)). { intros ->. unfold loc. rewrite map_of_k. destruct S as (e & -> & B & C). auto. }
  destruct (estatus loc) eqn:Es.
  - intros [= _ <-]. apply shaped_put; [exact S|intros H; rewrite Es; auto].
  - destruct (dims_eqb _ _) eqn:Ed; [|discriminate]. destruct (run _ _ _ _) as [[w o2]|] eqn:Er; [|discriminate]. intros [= _ <-].
    destruct (RUN _ _ _ _ (shaped_put j loc o S ltac:(intros H; rewrite Es; auto)) Er) as (S2 & M2). apply shaped_put; [exact S2|]. intros ->. cbn. destruct (LK eq_refl) as (B & _). split; [exact B|]. intros _. rewrite M2, put_members.
    unfold dims_eqb in Ed. destruct (list_eq_dec _ _ _); [congruence|discriminate].
Qed.
(** a quantity asked for once and asked for again when its shape should be different (after a change of resolution): undefined *)
Theorem C72_shape_is_fixed_at_first_use fuel o a o1 ops l o2 fuel' : query fuel k o = Some (a, o1) -> (forall e, cache o k = Some e -> edims e = d) -> dims (spec k) (members o) = d ->
  no_writes ops -> history fuel ops o1 = Some (l, o2) -> dims (spec k) (members o2) <> d -> query fuel' k o2 = None.
Proof.
  intros Q E0 D NW H ND. assert (S1 : shaped o1).
  { assert (M := query_members _ _ _ _ _ Q). destruct fuel as [|f]; [discriminate|]. revert Q. cbn [CacheModel.query]. set (loc := match map_of k o k with Some e => e | None => _ end).
    assert (LD : edims loc = d) by (unfold loc; rewrite map_of_k; destruct (cache o k) as [e|]; [now apply E0|exact D]).
    destruct (estatus loc) eqn:Es.
    - intros [= _ Ho]. exists loc. rewrite <- map_of_k, M, <- Ho, put_same. auto.
    - destruct (dims_eqb _ _); [|discriminate]. destruct (run _ _ _ _) as [[w ow]|]; [|discriminate]. intros [= _ Ho]. eexists. rewrite <- map_of_k, M, <- Ho, put_same. split; [reflexivity|]. cbn. auto. }
  assert (S2 : shaped o2).
  { refine (history_inv shaped fuel _ _ ops o1 l o2 NW S1 H); [intros j o' w ow S Eq; now apply (shaped_query fuel j o' w ow)|]. intros s o' (e & A & B & C). unfold shaped, CacheModel.set_members, invalidate_cache. cbn. rewrite A. eexists. split; [reflexivity|]. cbn. split; [exact B|discriminate]. }
  destruct S2 as (e & A & B & C). destruct fuel' as [|f]; [reflexivity|]. cbn [CacheModel.query]. rewrite map_of_k, A. destruct (estatus e); [exfalso; auto|]. rewrite B. unfold dims_eqb. destruct (list_eq_dec _ _ _) as [X|X]; [exfalso; auto|reflexivity].
Qed.
End Shapes.

(** ** nan and inf never go away *)
Inductive writes_length (n : nat) : prog -> Prop :=
  | wl_done a : length a = n -> writes_length n (Done a)
  | wl_ask k c : (forall a, writes_length n (c a)) -> writes_length n (Ask k c).
Lemma run_length n ask p o v o' : writes_length n p -> run St ask p o = Some (v, o') -> length v = n.
Proof. intros W. revert o. induction W as [a H|k c W IH]; intros o; cbn [run]; [now intros [= <- _]|]. destruct (ask k o) as [[b ob]|]; [|discriminate]. apply IH. Qed.
Section Poison.
Variables (k : key) (n i : nat).
Hypothesis ACC : accumulates (spec k) = true.
Hypothesis LEN : forall s, writes_length n (body (spec k) s).
Hypothesis Hi : i < n.
Definition poisoned (o : obj) : Prop := exists e, map_of k o k = Some e /\ nth_error (edata e) i = Some None.
Lemma accumulate_poison old new : nth_error old i = Some None -> i < length new -> nth_error (accumulate old new) i = Some None.
Proof. clear. revert old new. induction i as [|j IH]; intros [|a old] [|b new] H L; cbn in *; try discriminate; try lia; [injection H as ->; reflexivity|apply IH; auto; lia]. Qed.
Lemma poison_put j e o : poisoned o -> (j = k -> nth_error (edata e) i = Some None) -> poisoned (put j e o).
Proof. intros (e' & A & B) H. destruct (Nat.eq_dec j k) as [E|N]; [subst j; exists e; rewrite put_same; auto|]. exists e'. rewrite put_other; auto. Qed.
Lemma poison_query fuel : forall j o v o', poisoned o -> query fuel j o = Some (v, o') -> poisoned o' /\ (j = k -> nth_error v i = Some None).
Proof.
  induction fuel as [|fuel IH]; intros j o v o' S; [discriminate|]. cbn [CacheModel.query]. set (loc := match map_of j o j with Some e => e | None => _ end).
  assert (RUN : forall p o1 v o2, poisoned o1 -> run St (query fuel) p o1 = Some (v, o2) -> poisoned o2).
  { induction p as [b|m c IHc]; intros o1 w o2 S1; cbn [run]; [now intros [= _ <-]|]. destruct (query fuel m o1) as [[b o3]|] eqn:Eq; [|discriminate]. apply IHc. now apply (IH m o1 b). }
  assert (LK : j = k -> nth_error (edata loc) i = Some None). { intros ->. unfold loc. destruct S as (e & -> & B). auto. }
  destruct (estatus loc) eqn:Es.
  - intros [= <- <-]. split; [now apply poison_put|exact LK].
  - destruct (dims_eqb _ _); [|discriminate]. destruct (run _ _ _ _) as [[w o2]|] eqn:Er; [|discriminate]. intros [= <- <-].
    assert (W : j = k -> nth_error (write (accumulates (spec j)) (edata loc) w) i = Some None).
    { intros ->. rewrite ACC. apply accumulate_poison; [now apply LK|]. rewrite (run_length n _ _ _ _ _ (LEN _) Er). exact Hi. }
    split; [|exact W]. apply poison_put; [|exact W]. apply (RUN _ _ _ _ (poison_put j loc o S LK) Er).
Qed.
Lemma query_poison fuel o a o1 : query fuel k o = Some (a, o1) -> nth_error a i = Some None -> poisoned o1.
Proof. intros Q N. destruct (query_stuck _ _ _ _ _ Q) as (e & A & B & C). exists e. split; [exact A|]. now rewrite C. Qed.
Theorem C72_nan_is_forever fuel o a o1 ops l o2 fuel' v o3 : query fuel k o = Some (a, o1) -> nth_error a i = Some None ->
  no_writes ops -> history fuel ops o1 = Some (l, o2) -> query fuel' k o2 = Some (v, o3) -> nth_error v i = Some None.
Proof.
  intros Q N NW H Q'. assert (S2 : poisoned o2).
  { refine (history_inv poisoned fuel _ _ ops o1 l o2 NW (query_poison _ _ _ _ Q N) H); [intros j o' w ow S Eq; now apply (poison_query fuel j o' w ow)|].
    intros s o' (e & A & B). unfold poisoned, CacheModel.map_of, CacheModel.set_members, invalidate_cache in *. cbn. destruct (persistent (spec k)); [eauto|]. rewrite A. eexists. split; [reflexivity|]. exact B. }
  now apply (poison_query fuel' k o2 v o3 S2 Q').
Qed.
End Poison.

(** ** The arrays handed out are the cache: writing into one changes what the next caller gets *)
Theorem C72_returned_arrays_are_the_cache k fuel o a o1 b fuel' : query fuel k o = Some (a, o1) -> exists o2, query (S fuel') k (overwrite St spec k b o1) = Some (b, o2).
Proof.
  intros Q. destruct (query_stuck _ _ _ _ _ Q) as (e & A & B & C). unfold overwrite. rewrite A. cbn [CacheModel.query]. rewrite put_same. cbn [estatus]. rewrite B. cbn [edata]. eexists. reflexivity.
Qed.
End Props.
