(** src/algorithms/discrete_dynamics.cc (namespace spatial_dyn::discrete): the
    recursive discrete Newton-Euler algorithm and the variational integrator.
    HandleContact (159-177) has an empty body; InverseDynamicsDerivative (106-157) is
    commented out. *)
From Coq Require Import List Arith ZArith Bool.
From Verif Require Import Scalar Base Spatial Joint Body Kin InvDyn FwdDyn Opspace OpspaceAba Deriv Sim Ops.
Import ListNotations.

Section Discrete.
Context {S : Scal}.
Local Open Scope k_scope.
(** Eigen::LDLT::solve, as in FwdDyn.v. *)
Variable solve : list (list K) -> list K -> list K.
Variable pinv : list (list K) -> K -> list (list K) * bool.
(** ctrl_utils::Log(Isometry3d) and ctrl_utils::LogMapDerivative(Isometry3d) from
    <ctrl_utils/euclidian.h>, another repository: oracles. *)
Variable log6 : iso -> motion.
Variable dlog6 : iso -> i6.
(** Eigen's norm(): an oracle; nothing is assumed of it. *)
Variable norm : list K -> K.

(** A.transpose() * f for a 6x6 matrix by 3x3 blocks (Eigen product; the order of
    the six additions is not modelled). *)
Definition i6tmul (A : i6) (f : force) : force :=
  Frc (v3add (m3mulv (m3tr (b11 A)) (flin f)) (m3mulv (m3tr (b21 A)) (fang f)))
      (v3add (m3mulv (m3tr (b12 A)) (flin f)) (m3mulv (m3tr (b22 A)) (fang f))).
(** SpatialMotiond / double (spatial_motion_base.h:420-424). *)
Definition mdiv (m : motion) (k : K) : motion := Mot (v3div (mlin m) k) (v3div (mang m) k).

(** discrete_dynamics.cc:53-56 and 73-76: the inertia is the link's own, without its
    load. *)
Definition momentum (ab : body) (dt : K) (i : nat) (T : iso) : force :=
  i6tmul (dlog6 T) (imul (rb_inertia (rb_at ab i)) (mdiv (log6 T) dt)).

(** discrete_dynamics.cc:44-50 *)
Definition to_prev (ab : body) (Tp : arr iso) (qp : list K) (T : arr iso) (i : nat) : iso :=
  let X := iso_inv (T_par_q ab i (qk qp i)) in
  match par ab i with
  | None => iso_mul X (Tp i)
  | Some p => iso_mul (iso_mul X (T p)) (Tp i)
  end.
(** discrete_dynamics.cc:42-57, loop body. *)
Definition prev_step (ab : body) (Tp : arr iso) (qp : list K) (dt : K) (i : nat)
    (st : arr iso * arr force) : arr iso * arr force :=
  let '(T, p) := st in
  let Ti := to_prev ab Tp qp T i in
  (upd T i Ti, upd p i (momentum ab dt i Ti)).

(** discrete_dynamics.cc:64-70 *)
Definition from_next (ab : body) (Tp : arr iso) (qn : list K) (T : arr iso) (i : nat) : iso :=
  let X := T_par_q ab i (qk qn i) in
  match par ab i with
  | None => iso_mul (iso_inv (Tp i)) X
  | Some p => iso_mul (iso_mul (iso_inv (Tp i)) (T p)) X
  end.
(** discrete_dynamics.cc:79-82.  [f * dt] is written with the factor on the left. *)
Definition impulse (Tw : arr iso) (fe : fmap) (dt : K) (Tprev : iso) (pprev p : force) (i : nat) : force :=
  let x := fsub p (fact (iso_inv Tprev) pprev) in
  match fe i with
  | None => x
  | Some f => fsub x (fscale dt (fact (iso_inv (Tw i)) f))
  end.
(** discrete_dynamics.cc:62-83, loop body. *)
Definition next_step (ab : body) (Tp Tw : arr iso) (qn : list K) (dt : K) (fe : fmap)
    (Tprev : arr iso) (pprev : arr force) (i : nat) (st : arr iso * arr force * arr force)
    : arr iso * arr force * arr force :=
  let '(T, p, dp) := st in
  let Ti := from_next ab Tp qn T i in
  let pi := momentum ab dt i Ti in
  (upd T i Ti, upd p i pi, upd dp i (impulse Tw fe dt (Tprev i) (pprev i) pi i)).

(** discrete_dynamics.cc:32-38 *)
Definition ensure_qprev (ab : body) (dt : K) (c : cache) : cache :=
  let d := ca_dr c in
  if is_qprev d && keq (d_dt d) dt then c
  else with_dr c (DD (vec (ab_dof ab) (fun i => qk (ab_q ab) i - dt * qk (ab_dq ab) i)) dt true
                     (d_Tprev d) (d_pprev d) false (d_Tnext d) (d_p d) (d_dp d)).
(** discrete_dynamics.cc:40-59; the transforms are requested inside the loops. *)
Definition ensure_prev (ab : body) (dt : K) (c : cache) : cache :=
  let d := ca_dr c in
  if is_prev d then c
  else
    let '(T, p) := for_up (ab_dof ab) (prev_step ab (c_Tp (ca_T c)) (d_qprev d) dt) (d_Tprev d, d_pprev d) in
    with_dr c (DD (d_qprev d) (d_dt d) (is_qprev d) T p true (d_Tnext d) (d_p d) (d_dp d)).
(** discrete_dynamics.cc:25-104.  Gravity(ab) is called in every round of the
    backward loop; its value is added to what the shared backward pass computes. *)
Definition discrete_id (ab : body) (qn : list K) (dt : K) (fe : fmap) (grav : bool) (c : cache)
    : cache * arr K :=
  let n := ab_dof ab in
  let c := ensure_qprev ab dt c in
  let c := if Nat.ltb 0 n then ensure_Tp ab c else c in
  let c := if has_ext ab fe then ensure_Tw ab c else c in
  let c := ensure_prev ab dt c in
  let Tp := c_Tp (ca_T c) in
  let d := ca_dr c in
  let '(T, p, dp) := for_up n (next_step ab Tp (c_Tw (ca_T c)) qn dt fe (d_Tprev d) (d_pprev d))
                            (d_Tnext d, d_p d, d_dp d) in
  let '(tau, dp) := for_down n (back_step ab Tp) (fun _ => 0, dp) in
  let c := with_dr c (DD (d_qprev d) (d_dt d) (is_qprev d) (d_Tprev d) (d_pprev d) (is_prev d) T p dp) in
  if grav && Nat.ltb 0 n then
    let c := ensure_grav ab c in
    (c, fun i => tau i + dt * c_G (ca_grav c) i)
  else (c, tau).
(** discrete::InverseDynamics; [q_next] is subscripted up to dof
    (discrete_dynamics.cc:25-157). *)
Definition q_DiscreteID (qn : list K) (dt : K) (fe : fmap) (grav : bool) (ab : body) : res (body * list K) :=
  if Nat.ltb (List.length qn) (ab_dof ab) then UB
  else on_cache ab (fun c => let '(c, tau) := discrete_id ab qn dt fe grav c in Ok (c, vec (ab_dof ab) tau)).

(** discrete_dynamics.cc:190-195: quasi-Newton iteration, at most [cap] rounds.  The
    boolean tells whether the loop was left by [break]; the C++ does not report it. *)
Fixpoint newton (cap : nat) (ab : body) (tau : list K) (dt : K) (fe : fmap) (grav : bool) (eps : K)
    (qn : list K) (c : cache) : cache * list K * bool :=
  match cap with
  | O => (c, qn, false)
  | Datatypes.S cap =>
    let n := ab_dof ab in
    let '(c, x) := discrete_id ab qn dt fe grav c in
    let e := vec n (fun i => x i - dt * qk tau i) in
    if klt (norm e) eps then (c, qn, true)
    else
      let c := ensure_crba_inv ab c in
      let s := solve (mat n n (c_Afact (ca_crba c))) e in
      newton cap ab tau dt fe grav eps (vec n (fun i => qk qn i - dt * qk s i)) c
  end.
(** discrete_dynamics.cc:201-206 *)
Definition shift (q : list K) (c : cache) : cache :=
  let d := ca_dr c in
  with_dr c (DD q (d_dt d) true (d_Tnext d) (d_p d) true (d_Tprev d) (d_pprev d) (d_dp d)).
(** discrete_dynamics.cc:188: options.cc:27-28 keeps only the gravity flag; the rest
    are the defaults of ForwardDynamicsOptions (options.h:71-106). *)
Definition fd_options (grav : bool) : id_opts := IdOpts grav true false (klit 1 100).
(** discrete_dynamics.cc:180-207 *)
Definition q_DiscreteIntegrate (tau : list K) (dt : K) (fe : fmap) (grav : bool) (eps : K) (cap : nat)
    (ab : body) : res (body * bool) :=
  if Nat.eqb (List.length tau) (ab_dof ab) then
    match ab_cache ab with
    | None => UB
    | Some c =>
      let n := ab_dof ab in
      let q := ab_q ab in
      let '(c, a) := forward_dynamics solve ab tau fe (fd_options grav) c in
      let '(c, qn, done) := newton cap ab tau dt fe grav eps
            (vec n (fun i => qk q i + dt * qk (ab_dq ab) i + dt * dt * qk a i)) c in
      bind (called (set_q qn (set_cache ab (Some c)))) (fun ab =>
      bind (called (set_dq (vec n (fun i => (qk qn i - qk (d_qprev (ca_dr c)) i) / (klit 2 1 * dt))) ab)) (fun ab =>
      match ab_cache ab with
      | None => UB
      | Some c => Ok (set_cache ab (Some (shift q c)), done)
      end))
    end
  else UB.

(** Histories that also make discrete calls (the API of discrete_dynamics.h and of Ops.v). *)
Inductive dop :=
| DOp (o : op)
| DAsk (qn : list K) (dt : K) (fe : fmap) (grav : bool)
| DInt (tau : list K) (dt : K) (fe : fmap) (grav : bool) (eps : K) (cap : nat).
(** State after a call, [None] if it is undefined behaviour
    (articulated_body.cc:92-176, discrete_dynamics.cc:25-208). *)
Definition dstep (o : dop) (ab : body) : option body :=
  match o with
  | DOp o => step solve pinv o ab
  | DAsk qn dt fe grav => match q_DiscreteID qn dt fe grav ab with Ok (ab', _) => Some ab' | _ => None end
  | DInt tau dt fe grav eps cap =>
    match q_DiscreteIntegrate tau dt fe grav eps cap ab with Ok (ab', _) => Some ab' | _ => None end
  end.
(** a client program; no particular lines *)
Fixpoint drun (h : list dop) (ab : body) : option body :=
  match h with
  | nil => Some ab
  | o :: h => match dstep o ab with Some ab' => drun h ab' | None => None end
  end.
(** articulated_body.cc:18-20 then a client program *)
Definition dreached (h : list dop) (ab : body) : Prop :=
  exists name mem, drun h (body_new name mem) = Some ab.

End Discrete.
