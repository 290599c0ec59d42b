(** Specifications for simulation and friction (C24, C28), over the reals. *)
From Coq Require Import List Arith ZArith Bool Reals.
From Verif Require Import Scalar Base Spatial SpecGeo Joint Body Kin InvDyn FwdDyn Sim Ops Instances Specs SpecCache SpecKin SpecDyn SpecReal.
Import ListNotations.
Local Existing Instance RScal.
Local Open Scope R_scope.

(** Limits a position can satisfy. *)
Definition sane_limits (j : @joint RScal) : Prop :=
  bound_le (jqmin j) (jqmax j) /\ jqmin j <> PInf /\ jqmax j <> NInf.
(** The joint is within its limits and, at a limit, does not move further out. *)
Definition within (j : @joint RScal) (q dq : R) : Prop :=
  bound_le (jqmin j) (@Fin RScal q) /\ bound_le (@Fin RScal q) (jqmax j) /\
  (jqmax j = @Fin RScal q -> dq <= 0) /\ (jqmin j = @Fin RScal q -> 0 <= dq).
(** The joint of link [i]. *)
Definition joint_i (ab : @body RScal) (i : nat) : @joint RScal := rb_joint (nth i (ab_rbs ab) rb_default).

(** The robots of the class [P] are the robot [ab0] in various states, and on them
    the forward dynamics [fd] returns the acceleration [acc q dq] without changing the
    state. *)
Record dynamics_of (ab0 : @body RScal) (P : @body RScal -> Prop)
    (fd : @body RScal -> res (@body RScal * list R)) (acc : list R -> list R -> list R) : Prop := {
  df_robot : forall b, P b -> ab_dof b = ab_dof ab0 /\ ab_rbs b = ab_rbs ab0 /\
               List.length (ab_q b) = ab_dof ab0 /\ List.length (ab_dq b) = ab_dof ab0;
  df_place : forall b q dq b', P b -> placed b q dq b' -> P b';
  df_fd : forall b, P b -> exists b', fd b = Ok (b', acc (ab_q b) (ab_dq b)) /\ P b' /\ ab_q b' = ab_q b /\ ab_dq b' = ab_dq b
}.

(** Vectors of [n] coefficients. *)
Definition vplus (n : nat) (x y : list R) : list R := map (fun i => @coef RScal x i + @coef RScal y i) (seq 0 n).
Definition vtimes (n : nat) (c : R) (x : list R) : list R := map (fun i => c * @coef RScal x i) (seq 0 n).
(** States (q, dq). *)
Definition pplus n (x y : list R * list R) := (vplus n (fst x) (fst y), vplus n (snd x) (snd y)).
Definition ptimes n (c : R) (x : list R * list R) := (vtimes n c (fst x), vtimes n c (snd x)).
Definition flow (acc : list R -> list R -> list R) (y : list R * list R) := (snd y, acc (fst y) (snd y)).
(** The state after moving for [dt] at constant acceleration [a]. *)
Definition ballistic n (a : list R) dt (y : list R * list R) :=
  (vplus n (vplus n (fst y) (vtimes n dt (snd y))) (vtimes n (dt * dt / 2) a), vplus n (snd y) (vtimes n dt a)).
(** Textbook steps of the system y' = f y. *)
Definition heun n (f : list R * list R -> list R * list R) dt y :=
  let k1 := f y in
  let k2 := f (pplus n y (ptimes n dt k1)) in
  pplus n y (ptimes n (dt / 2) (pplus n k1 k2)).
Definition rk4 n (f : list R * list R -> list R * list R) dt y :=
  let k1 := f y in
  let k2 := f (pplus n y (ptimes n (dt / 2) k1)) in
  let k3 := f (pplus n y (ptimes n (dt / 2) k2)) in
  let k4 := f (pplus n y (ptimes n dt k3)) in
  pplus n y (ptimes n (dt / 6) (pplus n (pplus n (pplus n k1 (ptimes n 2 k2)) (ptimes n 2 k3)) k4)).
Definition textbook (m : int_method) n acc dt y :=
  match m with
  | MEuler => ballistic n (acc (fst y) (snd y)) dt y
  | MHeun => heun n (flow acc) dt y
  | MRk4 => rk4 n (flow acc) dt y
  end.
Definition state_of (ab : @body RScal) : list R * list R := (ab_q ab, ab_dq ab).
(** The acceleration that the forward dynamics query [q] answers with in state
    (pos, vel). *)
Definition accel solve pinv (ab : @body RScal) (qu : @query RScal) (pos vel : list R) : list R :=
  match set_q pos ab with
  | Ret ab1 _ => match set_dq vel ab1 with
                 | Ret ab2 _ => match outcome (ask solve pinv qu ab2) with Ok (AVec a) => a | _ => nil end
                 | _ => nil
                 end
  | _ => nil
  end.
Definition sim_query (aba : bool) (tau : list R) fe o : @query RScal := if aba then @QAba RScal tau fe o else @QFD RScal tau fe o.
(** Friction coefficients as the setters allow them (C25). *)
Definition friction_coefficients (j : @joint RScal) : Prop := 0 <= jcoulomb j /\ 0 <= jviscous j /\ 0 <= jstiction j.
Definition sign (x : R) : R := if Rlt_dec 0 x then 1 else if Rlt_dec x 0 then -1 else 0.
