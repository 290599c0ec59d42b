(** Histories of API calls on one robot object. *)
From Coq Require Import List Arith ZArith Bool String.
From Verif Require Import Scalar Base Spatial Joint Body Kin InvDyn FwdDyn Opspace OpspaceAba Deriv Sim.
Import ListNotations.

Section Ops.
Context {S : Scal}.
Local Open Scope k_scope.
Variable solve : list (list K) -> list K -> list K.
Variable pinv : list (list K) -> K -> list (list K) * bool.

(** Every modelled query (algorithm or accessor that may touch the cache)
    (the functions of algorithms/*.h and articulated_body.h). *)
Inductive query :=
| QTp (i : Z) | QTw (i : Z)
| QPos (l : Z) (off : v3) | QOri (l : Z) | QPose (l : Z) (off : v3)
| QJac (l : Z) (off : v3) | QLin (l : Z) (off : v3) | QAng (l : Z) | QHess (l : Z) (off : v3)
| QCC | QGrav | QExt (fe : fmap) | QInertia | QComp (l : Z) | QAinv (b : list K)
| QID (ddq : list K) (fe : fmap) (o : id_opts)
| QFD (tau : list K) (fe : fmap) (o : id_opts)
| QAba (tau : list K) (fe : fmap) (o : id_opts)
| QAinvAba
| QVelD (ddq : list K) (fe : fmap) (o : id_opts)
| QPosD (ddq : list K) (fe : fmap) (o : id_opts)
| QoLinv (J : lmat) | QoLambda (J : lmat) (eps : K) | QoJbar (J : lmat) (eps : K)
| QoSing (J : lmat) (eps : K) | QoCC (J : lmat) (l : Z) (eps : K) | QoGrav (J : lmat) (eps : K)
| QoExt (J : lmat) (fe : fmap) (eps : K) | QoFric (J : lmat) (tau : list K) (eps stic : K)
| QoID (J : lmat) (ddx : list K) (N : option lmat) (fe : fmap) (fe_empty : bool) (o : ops_opts)
| QaLinv (l : Z) (off : v3) | QaLambda (l : Z) (off : v3) (eps : K)
| QaCC (l : Z) (off : v3) (eps : K) | QaGrav (l : Z) (off : v3) (fe : fmap) (eps : K).

(** their results *)
Inductive answer :=
| AIso (x : iso) | AV3 (x : v3) | AM3 (x : m3) | AMots (x : list motion) | AV3s (x : list v3)
| AHess (x : list (list motion)) | AVec (x : list K) | AMat (x : list (list K)) | AInr (x : inertia)
| ABool (b : bool) | ANull (N : option lmat) (x : list K).

(** no counterpart in the code: only groups the results *)
Definition wrap {A} (f : A -> answer) (r : res (body * A)) : res (body * answer) :=
  bind r (fun '(ab, x) => Ok (ab, f x)).

(** the functions cited in Kin.v, InvDyn.v, FwdDyn.v, Opspace.v, OpspaceAba.v, Deriv.v *)
Definition ask (q : query) (ab : body) : res (body * answer) :=
  match q with
  | QTp i => wrap AIso (q_T_to_parent i ab)
  | QTw i => wrap AIso (q_T_to_world i ab)
  | QPos l off => wrap AV3 (q_Position l off ab)
  | QOri l => wrap AM3 (q_Orientation l ab)
  | QPose l off => wrap AIso (q_CartesianPose l off ab)
  | QJac l off => wrap AMots (q_Jacobian l off ab)
  | QLin l off => wrap AV3s (q_LinearJacobian l off ab)
  | QAng l => wrap AV3s (q_AngularJacobian l ab)
  | QHess l off => wrap AHess (q_Hessian l off ab)
  | QCC => wrap AVec (q_CentrifugalCoriolis ab)
  | QGrav => wrap AVec (q_Gravity ab)
  | QExt fe => wrap AVec (q_ExternalTorques fe ab)
  | QInertia => wrap AMat (q_Inertia ab)
  | QComp l => wrap AInr (q_CompositeInertia l ab)
  | QAinv b => wrap AVec (q_InertiaInverse_solve solve b ab)
  | QID ddq fe o => wrap AVec (q_InverseDynamics ddq fe o ab)
  | QFD tau fe o => wrap AVec (q_ForwardDynamics solve tau fe o ab)
  | QAba tau fe o => wrap AVec (q_ForwardDynamicsAba tau fe o ab)
  | QAinvAba => wrap AMat (q_InertiaInverseAba ab)
  | QVelD ddq fe o => wrap AMat (q_VelocityDerivative ddq fe o ab)
  | QPosD ddq fe o => wrap AMat (q_PositionDerivative ddq fe o ab)
  | QoLinv J => wrap AMat (q_ops_InertiaInverse solve J ab)
  | QoLambda J eps => wrap AMat (q_ops_Inertia solve pinv J eps ab)
  | QoJbar J eps => wrap AMat (q_ops_JacobianDynamicInverse solve pinv J eps ab)
  | QoSing J eps => wrap ABool (q_ops_IsSingular solve pinv J eps ab)
  | QoCC J l eps => wrap AVec (q_ops_CentrifugalCoriolis solve pinv J l eps ab)
  | QoGrav J eps => wrap AVec (q_ops_Gravity solve pinv J eps ab)
  | QoExt J fe eps => wrap AVec (q_ops_ExternalForces solve pinv J fe eps ab)
  | QoFric J tau eps stic => wrap AVec (q_ops_Friction solve pinv J tau eps stic ab)
  | QoID J ddx N fe e o => wrap (fun '(N, x) => ANull N x) (q_ops_InverseDynamics solve pinv J ddx N fe e o ab)
  | QaLinv l off => wrap AMat (q_ops_InertiaInverseAba l off ab)
  | QaLambda l off eps => wrap AMat (q_ops_InertiaAba pinv l off eps ab)
  | QaCC l off eps => wrap AVec (q_ops_CentrifugalCoriolisAba pinv l off eps ab)
  | QaGrav l off fe eps => wrap AVec (q_ops_GravityAba pinv l off fe eps ab)
  end.

(** simulation.cc:120: which forward dynamics Integrate calls. *)
Definition sim_fd (aba : bool) (tau : list K) (fe : fmap) (o : id_opts) (ab : body) : res (body * list K) :=
  if aba then q_ForwardDynamicsAba tau fe o ab else q_ForwardDynamics solve tau fe o ab.

(** API calls. [OCopy] replaces the robot by a copy of itself
    (articulated_body.h:60-330 and the queries). *)
Inductive op :=
| OAdd (rb : rigid_body) (p : Z)
| OSetQ (q : list K) | OSetDq (dq : list K) | OSetG (g : v3)
| OAddLoad (I : inertia) (i : Z) | OReplaceLoad (I : inertia) (i : Z) | OClearLoad (i : Z)
| OSetBase (T : iso) | OSetIbase (I : inertia)
| OCopy
| OIntegrate (aba : bool) (tau : list K) (fe : fmap) (o : id_opts) (io : int_opts) (dt : K)
| OAsk (q : query).

(** State after a call (also one that threw); [None] if the call is undefined
    behaviour (articulated_body.cc:18-176, 241-252). *)
Definition step (o : op) (ab : body) : option body :=
  match o with
  | OAdd rb p => settled (add_rigid_body rb p ab)
  | OSetQ q => settled (set_q q ab)
  | OSetDq dq => settled (set_dq dq ab)
  | OSetG g => settled (set_g g ab)
  | OAddLoad J i => settled (add_load J i ab)
  | OReplaceLoad J i => settled (replace_load J i ab)
  | OClearLoad i => settled (clear_load i ab)
  | OSetBase T => settled (set_T_base T ab)
  | OSetIbase J => settled (set_inertia_base J ab)
  | OCopy => match body_copy ab with Ok ab' => Some ab' | _ => None end
  | OIntegrate aba tau fe o io dt =>
    (* never throws: all vectors have the right length *)
    match integrate (sim_fd aba tau fe o) io dt ab with Ok ab' => Some ab' | _ => None end
  | OAsk q =>
    match ask q ab with
    | Ok (ab', _) => Some ab'
    | UB => None
    | Throw =>
      match q with
      | QoID J ddx N fe e o =>
        (* opspace_dynamics.cc:130 throws after lines 43-56 have run *)
        let Jx := match N with Some ((_ :: _) as M) => lmul (List.length J) (ab_dof ab) (ab_dof ab) J M | _ => J end in
        match q_ops_InverseDynamics solve pinv Jx ddx None fe e
                (OpsOpts (p_grav o) false false (p_svd o) (p_stic o) (p_facc o)) ab with
        | Ok (ab', _) => Some ab' | _ => None
        end
      | _ => Some ab
      end
    end
  end.

(** a client program; no particular lines *)
Fixpoint run (h : list op) (ab : body) : option body :=
  match h with
  | nil => Some ab
  | o :: h => match step o ab with Some ab' => run h ab' | None => None end
  end.

(** A robot obtained by some history from a new object (over arbitrary memory)
    (articulated_body.cc:18-20 then a client program). *)
Definition reached (h : list op) (ab : body) : Prop :=
  exists name mem, run h (body_new name mem) = Some ab.
(** articulated_body.cc:18-20 then a client program *)
Definition reachable (ab : body) : Prop := exists h, reached h ab.

(** The robot with a never-used cache over memory [mem] (articulated_body.cc:18-20). *)
Definition cold (ab : body) (mem : cache) : body := set_cache ab (Some (all_clear mem)).

End Ops.
