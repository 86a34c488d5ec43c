(** Vectors in space and 3x3 matrices (numpy arrays of shape (3,) and (3,3), Vec3d in vec3dsimd.h). *)
From Verif Require Export VecAux.
From Coq Require Import Reals Lra.
Open Scope R_scope.

Record vec3 := V3 { vx : R; vy : R; vz : R }.
Definition v0 := V3 0 0 0.
Definition add3 a b := V3 (vx a + vx b) (vy a + vy b) (vz a + vz b).
Definition sub3 a b := V3 (vx a - vx b) (vy a - vy b) (vz a - vz b).
Definition scal3 s a := V3 (s * vx a) (s * vy a) (s * vz a).
Definition dot3 a b := vx a * vx b + vy a * vy b + vz a * vz b.
(** vec3dsimd.h:10-14 *)
Definition cross a b := V3 (vy a * vz b - vz a * vy b) (vz a * vx b - vx a * vz b) (vx a * vy b - vy a * vx b).
Definition normsq a := dot3 a a.
(** components 0, 1, 2 *)
Definition coord (a : vec3) (k : nat) : R := match k with O => vx a | S O => vy a | _ => vz a end.
Definition unit3 (k : nat) : vec3 := match k with O => V3 1 0 0 | S O => V3 0 1 0 | _ => V3 0 0 1 end.
(** sum of a list of vectors *)
Fixpoint sum3 (l : list vec3) : vec3 := match l with [] => v0 | a :: r => add3 a (sum3 r) end.

(** matrices by rows; [v @ M] for a row vector, M @ N, M.T *)
Record mat3 := M3 { row0 : vec3; row1 : vec3; row2 : vec3 }.
Definition vecmat (v : vec3) (m : mat3) : vec3 := add3 (scal3 (vx v) (row0 m)) (add3 (scal3 (vy v) (row1 m)) (scal3 (vz v) (row2 m))).
Definition matmat (m n : mat3) : mat3 := M3 (vecmat (row0 m) n) (vecmat (row1 m) n) (vecmat (row2 m) n).
Definition transp (m : mat3) : mat3 :=
  M3 (V3 (vx (row0 m)) (vx (row1 m)) (vx (row2 m))) (V3 (vy (row0 m)) (vy (row1 m)) (vy (row2 m))) (V3 (vz (row0 m)) (vz (row1 m)) (vz (row2 m))).

Lemma v3_eq a b : vx a = vx b -> vy a = vy b -> vz a = vz b -> a = b.
Proof. destruct a, b; cbn; intros -> -> ->; reflexivity. Qed.
Ltac v3 := repeat match goal with a : vec3 |- _ => destruct a end; apply v3_eq; cbn.
Lemma add3_0_l a : add3 v0 a = a. Proof. v3; ring. Qed.
Lemma add3_0_r a : add3 a v0 = a. Proof. v3; ring. Qed.
Lemma add3_assoc a b c : add3 a (add3 b c) = add3 (add3 a b) c. Proof. v3; ring. Qed.
Lemma add3_comm a b : add3 a b = add3 b a. Proof. v3; ring. Qed.
Lemma scal3_add s a b : scal3 s (add3 a b) = add3 (scal3 s a) (scal3 s b). Proof. v3; ring. Qed.
Lemma scal3_0 s : scal3 s v0 = v0. Proof. v3; ring. Qed.
Lemma scal3_1 a : scal3 1 a = a. Proof. v3; ring. Qed.
Lemma scal3_scal s t a : scal3 s (scal3 t a) = scal3 (s * t) a. Proof. v3; ring. Qed.
Lemma sum3_app l1 l2 : sum3 (l1 ++ l2) = add3 (sum3 l1) (sum3 l2).
Proof. induction l1 as [|a l IH]; cbn; [now rewrite add3_0_l|]. now rewrite IH, add3_assoc. Qed.
Lemma sum3_scal s l : sum3 (map (scal3 s) l) = scal3 s (sum3 l).
Proof. induction l as [|a l IH]; cbn; [now rewrite scal3_0|]. now rewrite IH, scal3_add. Qed.
Lemma sum3_map_add {A} (f g : A -> vec3) l : sum3 (map (fun a => add3 (f a) (g a)) l) = add3 (sum3 (map f l)) (sum3 (map g l)).
Proof. induction l as [|a l IH]; cbn; [now rewrite add3_0_l|]. rewrite IH. rewrite !add3_assoc. f_equal. rewrite <- !add3_assoc. f_equal. apply add3_comm. Qed.
Lemma vecmat_add a b m : vecmat (add3 a b) m = add3 (vecmat a m) (vecmat b m). Proof. destruct m as [[] [] []]. v3; ring. Qed.
Lemma vecmat_sub a b m : vecmat (sub3 a b) m = sub3 (vecmat a m) (vecmat b m). Proof. destruct m as [[] [] []]. v3; ring. Qed.
Lemma vecmat_scal s a m : vecmat (scal3 s a) m = scal3 s (vecmat a m). Proof. destruct m as [[] [] []]. v3; ring. Qed.
Lemma vecmat_0 m : vecmat v0 m = v0. Proof. destruct m as [[] [] []]. v3; ring. Qed.
Lemma vecmat_mat a m n : vecmat a (matmat m n) = vecmat (vecmat a m) n. Proof. destruct m as [[] [] []], n as [[] [] []]. v3; ring. Qed.
Lemma vecmat_sum l m : vecmat (sum3 l) m = sum3 (map (fun a => vecmat a m) l).
Proof. induction l as [|a l IH]; cbn; [apply vecmat_0|]. now rewrite vecmat_add, IH. Qed.
Lemma dot3_transp a b m : dot3 a (vecmat b m) = dot3 (vecmat a (transp m)) b.
Proof. destruct m as [[] [] []], a, b. cbn. unfold dot3. cbn. ring. Qed.
