(** Model of src/simsopt/objectives/fluxobjective.py ("py:") and src/simsoptpp/integral_BdotN.cpp ("cpp:"), over exact reals.
    Arrays over the nphi x ntheta quadrature points are functions of the flattened index k < np = nphi * ntheta.
    Simplification: every array has the right shape and storage order, except that the number of field points may differ from np
    (reshape error, py:65). *)
From Coq Require Import Reals Lra Lia List Bool String.
From Verif Require Import ListAux VecAux Vec3 CurveModel CurveDiff CurveObjModel.
Import ListNotations.
Open Scope R_scope.

Inductive defn := Quadratic | Normalized | Local.
(** cpp:75-83 *)
Definition normN (n : vec3) : R := sqrt (vx n * vx n + vy n * vy n + vz n * vz n).
Definition BdotN (B n : vec3) : R := vx B * (vx n / normN n) + vy B * (vy n / normN n) + vz B * (vz n / normN n).
(** cpp:84-85 *)
Definition resid (B n : vec3) (t : R) : R := BdotN B n - t.
(** cpp:87-91 *)
Definition modB2 (B : vec3) : R := vx B * vx B + vy B * vy B + vz B * vz B.
(** cpp:93-115 integral_BdotN *)
Definition flux_J (d : defn) (np : nat) (B n : nat -> vec3) (T : nat -> R) : R :=
  match d with
  | Quadratic => 1 / 2 * sum_to np (fun k => resid (B k) (n k) (T k) * resid (B k) (n k) (T k) * normN (n k)) / INR np
  | Normalized => 1 / 2 * sum_to np (fun k => resid (B k) (n k) (T k) * resid (B k) (n k) (T k) * normN (n k)) / sum_to np (fun k => modB2 (B k) * normN (n k))
  | Local => 1 / 2 * sum_to np (fun k => resid (B k) (n k) (T k) * resid (B k) (n k) (T k) / modB2 (B k) * normN (n k)) / INR np
  end.
(** py:68-103 dJdB *)
Definition unitn (n : vec3) : vec3 := scal3 (1 / norm3 n) n.
Definition B_n (B n : vec3) (t : R) : R := dot3 B (unitn n) - t.
Definition dJdB (d : defn) (np : nat) (B n : nat -> vec3) (T : nat -> R) : nat -> vec3 :=
  match d with
  | Quadratic => fun k => scal3 (1 / INR np) (scal3 (norm3 (n k)) (scal3 (B_n (B k) (n k) (T k)) (unitn (n k))))
  | Local => fun k => let bn := B_n (B k) (n k) (T k) in let m := norm3 (B k) in
      scal3 (1 / INR np) (scal3 (norm3 (n k)) (scal3 (bn / m) (sub3 (scal3 (1 / m) (unitn (n k))) (scal3 (bn / m ^ 3) (B k)))))
  | Normalized => fun k => let num := mean np (fun k => B_n (B k) (n k) (T k) ^ 2 * norm3 (n k)) in let den := mean np (fun k => norm3 (B k) ^ 2 * norm3 (n k)) in
      scal3 (1 / 2) (sub3 (scal3 (1 / den) (scal3 (2 / INR np) (scal3 (norm3 (n k)) (scal3 (B_n (B k) (n k) (T k)) (unitn (n k))))))
                          (scal3 (num / den ^ 2) (scal3 (2 / INR np) (scal3 (norm3 (n k)) (B k)))))
  end.
(** py:105-106 dJ: the field's B_vjp applied to dJdB; C k m is the derivative of B at point k with respect to dof m (C57) *)
Definition flux_dJ (d : defn) (nd np : nat) (B n : nat -> vec3) (T : nat -> R) (C : nat -> nat -> vec3) : list R := curve_vjp nd C np (dJdB d np B n T).

(** ** Which points the field is evaluated at: py:52-66.  One field shared by several objectives, surfaces that may move *)
Record surf := Surf { s_gamma : list vec3; s_normal : list vec3 }.
Record fobj := FObj { f_surface : nat; f_target : nat -> R; f_def : defn }.
Record fstate := FSt { st_points : list vec3; st_surf : nat -> surf; st_objs : list fobj; st_B : vec3 -> vec3 }.
Inductive fop :=
| NewFlux (s : nat) (target : nat -> R) (d : option defn)      (* None: an unknown string: ValueError after set_points *)
| MoveSurface (s : nat) (g n : list vec3)                     (* new dofs of the surface; not a parent of the objective *)
| ChangeField (B : vec3 -> vec3)                              (* new dofs of the field; its points stay *)
| SetPoints (p : list vec3).                                  (* field.set_points called by anyone else *)
Definition fstep (o : fop) (st : fstate) : fstate :=
  match o with
  | NewFlux s t d => FSt (s_gamma (st_surf st s)) (st_surf st) (match d with Some d => st_objs st ++ [FObj s t d] | None => st_objs st end) (st_B st)
  | MoveSurface s g n => FSt (st_points st) (fun i => if (i =? s)%nat then Surf g n else st_surf st i) (st_objs st) (st_B st)
  | ChangeField B => FSt (st_points st) (st_surf st) (st_objs st) B
  | SetPoints p => FSt p (st_surf st) (st_objs st) (st_B st)
  end.
Definition frun (l : list fop) (st : fstate) : fstate := fold_left (fun st o => fstep o st) l st.
(** py:63-66 J(); None: the reshape error *)
Definition eval_J (st : fstate) (i : nat) : option R :=
  match nth_error (st_objs st) i with
  | None => None
  | Some o => let n := s_normal (st_surf st (f_surface o)) in
      if (List.length (st_points st) =? List.length n)%nat
      then Some (flux_J (f_def o) (List.length n) (fun k => st_B st (nth k (st_points st) v0)) (fun k => nth k n v0) (f_target o)) else None
  end.
