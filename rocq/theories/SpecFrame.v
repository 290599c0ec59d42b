(** Specifications: the position task of opspace_control and the task frame (C66). *)
From Coq Require Import List Arith ZArith Bool.
From Verif Require Import Scalar Base Spatial Specs SpecDyn.
Import ListNotations.

Section SpecFrame.
Context {S : Scal}.
Local Open Scope k_scope.
(** How fast the point whose Jacobian has these columns moves when the joints move at [x]
    (with joint accelerations: what they contribute to its acceleration), in the world. *)
Definition along (part : v3 -> K) (n : nat) (columns : list motion) (x : list K) : K :=
  total (map (fun j => part (mlin (nth j columns mzero)) * coef x j) (seq 0 n)).
Definition carried (n : nat) (columns : list motion) (x : list K) : v3 :=
  V3 (along vx n columns x) (along vy n columns x) (along vz n columns x).
(** Axis by axis, a spring with stiffnesses [kp] pulling along [e] and a damper [kv]
    against [v]. *)
Definition spring (kp kv e v : v3) : v3 :=
  V3 (vx kp * vx e - vx kv * vx v) (vy kp * vy e - vy kv * vy v) (vz kp * vz e - vz kv * vz v).
Definition on_axes (a : K) : v3 := V3 a a a.
Definition vector (l : list K) : v3 := V3 (coef l 0) (coef l 1) (coef l 2).
(** The documented law of the position task (opspace_control.py, pos_gains and
    max_pos_acceleration): [-kp (x - pos) - kv dx], not clipped. *)
Definition drives_to (goal kp kv : v3) (law : v3 -> list K -> list K * list K) : Prop :=
  forall x dx, List.length (fst (law x dx)) = 3%nat /\ vector (fst (law x dx)) = spring kp kv (v3sub goal x) (vector dx).
End SpecFrame.
