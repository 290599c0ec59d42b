(** src/algorithms/simulation.cc, built without JOINT_LIMITS (the qpOASES code is
    not modelled; JOINT_LIMITS is off in the default build). *)
From Coq Require Import List Arith ZArith Bool.
From Verif Require Import Scalar Base Spatial Joint Body Kin InvDyn FwdDyn.
Import ListNotations.

Section Sim.
Context {S : Scal}.
Local Open Scope k_scope.

(** C++ [>=], [<=] between a value and a limit (simulation.cc:101). *)
Definition beq (a b : bound) : bool :=
  match a, b with
  | NInf, NInf | PInf, PInf => true
  | Fin x, Fin y => keq x y
  | _, _ => false
  end.
(** simulation.cc:101 *)
Definition ble (a b : bound) : bool := blt a b || beq a b.

(** A limit used as a position.  (Assigning an infinite limit never happens when the
    comparison that guards it is true: q > +inf and q < -inf are false; the other
    infinities would be stored as such, which the model cannot express.)
    (simulation.cc:84-88). *)
Definition bnd_val (b : bound) (d : K) : option K := match b with Fin x => Some x | _ => None end.

(** simulation.cc:79-94 without q_err.  A position beyond an infinite limit of the
    wrong sign (q_max = -inf or q_min = +inf) would be set to that infinity: UB
    stands for it here. *)
Definition clip_q1 (j : joint) (q : K) : res K :=
  if blt (jqmax j) (Fin q) then match bnd_val (jqmax j) q with Some x => Ok x | None => UB end
  else if blt (Fin q) (jqmin j) then match bnd_val (jqmin j) q with Some x => Ok x | None => UB end
  else Ok q.
(** the loop of simulation.cc:82-92 *)
Fixpoint seq_res {A} (l : list (res A)) : res (list A) :=
  match l with
  | nil => Ok nil
  | x :: l => bind x (fun x => bind (seq_res l) (fun l => Ok (x :: l)))
  end.
(** simulation.cc:79-94 *)
Definition clip_q (ab : body) (q : list K) : res (list K) :=
  seq_res (map (fun i => clip_q1 (rb_joint (rb_at ab i)) (qk q i)) (seq 0 (ab_dof ab))).
(** simulation.cc:96-109 with dq_err = nullptr *)
Definition clip_dq1 (j : joint) (q dq : K) : K :=
  if (ble (jqmax j) (Fin q) && klt 0 dq) || (ble (Fin q) (jqmin j) && klt dq 0) then 0 else dq.
(** simulation.cc:96-109 *)
Definition clip_dq (ab : body) (dq : list K) : list K :=
  vec (ab_dof ab) (fun i => clip_dq1 (rb_joint (rb_at ab i)) (qk (ab_q ab) i) (qk dq i)).

(** options.h:113-160 *)
Inductive int_method := MEuler | MHeun | MRk4.
(** options.h, IntegrationOptions *)
Record int_opts := IntOpts { i_limits : bool; i_method : int_method }.

(** an Eigen expression over vectors of size n, evaluated coefficient by coefficient, simulation.cc:116-194 *)
Definition vlin (n : nat) (f : nat -> K) : list K := vec n f.
(** the literal 0.5, simulation.cc:116-194 *)
Definition khalf : K := klit 1 2.

Section Integrate.
(** The forward dynamics (ForwardDynamics or ForwardDynamicsAba with the given
    torque, external forces and options; simulation.cc:120). *)
Variable fd : body -> res (body * list K).
Variable o : int_opts.

(** [ab.set_q(FilterQ(ab, q)); ab.set_dq(FilterDq(ab, dq))] (simulation.cc:116-194). *)
Definition put (q dq : list K) (ab : body) : res body :=
  bind (if i_limits o then clip_q ab q else Ok q) (fun q =>
  bind (called (set_q q ab)) (fun ab =>
  called (set_dq (if i_limits o then clip_dq ab dq else dq) ab))).

(** simulation.cc:116-194 *)
Definition integrate (dt : K) (ab : body) : res body :=
  let n := ab_dof ab in
  let q0 := qk (ab_q ab) in
  let dq0 := qk (ab_dq ab) in
  bind (fd ab) (fun '(ab, a0) => let a0 := qk a0 in
  match i_method o with
  | MEuler =>
    put (vlin n (fun i => q0 i + dt * dq0 i + khalf * dt * dt * a0 i))
        (vlin n (fun i => dq0 i + dt * a0 i)) ab
  | MHeun =>
    bind (put (vlin n (fun i => q0 i + dt * dq0 i)) (vlin n (fun i => dq0 i + dt * a0 i)) ab) (fun ab =>
    let dq1 := qk (ab_dq ab) in
    bind (fd ab) (fun '(ab, a1) => let a1 := qk a1 in
    put (vlin n (fun i => q0 i + khalf * dt * (dq0 i + dq1 i)))
        (vlin n (fun i => dq0 i + khalf * dt * (a0 i + a1 i))) ab))
  | MRk4 =>
    bind (put (vlin n (fun i => q0 i + khalf * dt * dq0 i)) (vlin n (fun i => dq0 i + khalf * dt * a0 i)) ab) (fun ab =>
    let dq1 := qk (ab_dq ab) in
    bind (fd ab) (fun '(ab, a1) => let a1 := qk a1 in
    bind (put (vlin n (fun i => q0 i + khalf * dt * dq1 i)) (vlin n (fun i => dq0 i + khalf * dt * a1 i)) ab) (fun ab =>
    let dq2 := qk (ab_dq ab) in
    bind (fd ab) (fun '(ab, a2) => let a2 := qk a2 in
    bind (put (vlin n (fun i => q0 i + dt * dq2 i)) (vlin n (fun i => dq0 i + dt * a2 i)) ab) (fun ab =>
    let dq3 := qk (ab_dq ab) in
    bind (fd ab) (fun '(ab, a3) => let a3 := qk a3 in
    let two := klit 2 1 in let six := klit 6 1 in
    put (vlin n (fun i => q0 i + dt / six * (dq0 i + two * dq1 i + two * dq2 i + dq3 i)))
        (vlin n (fun i => dq0 i + dt / six * (a0 i + two * a1 i + two * a2 i + a3 i))) ab))))))
  end).
End Integrate.

End Sim.
