(** Queries that return a reference into the robot's cache. *)
From Coq Require Import List Arith ZArith Bool.
From Verif Require Import Scalar Base Spatial Joint Body Kin InvDyn FwdDyn Opspace OpspaceAba Deriv Sim Ops.
Import ListNotations.

Section Refs.
Context {S : Scal}.
Variable solve : list (list K) -> list K -> list K.

(** The objects referred to: articulated_body_cache.h:22-124 (members T_to_parent,
    T_to_world, J, C, G, A, I_c, A_inv of the LDLT and of the ABA, Lambda,
    Lambda_inv, J_bar).  [RLin]/[RAng] are the top and bottom rows of J
    (forward_kinematics.cc:85-97); [RLdlt b] is what [.solve(b)] gives on the LDLT
    object. *)
Inductive ref :=
| RTp (i : nat) | RTw (i : nat) | RJac | RLin | RAng | RCC | RGrav | RInertia | RComp (i : nat)
| RLdlt (b : list K) | RAinvAba | RoLinv | RoLambda | RoJbar | RaLinv | RaLambda.

(** The reference a query returns, when it returns one: the [const T&] and
    [Eigen::Ref] result types of articulated_body.h:295, 356,
    forward_kinematics.h:131-200, inverse_dynamics.h:61-134,
    forward_dynamics.h:82-94, opspace_dynamics.h:29-59. *)
Definition refers (n : nat) (q : query) : option ref :=
  match q with
  | QTp i => option_map RTp (idx n i)
  | QTw i => option_map RTw (idx n i)
  | QJac _ _ => Some RJac | QLin _ _ => Some RLin | QAng _ => Some RAng
  | QCC => Some RCC | QGrav => Some RGrav | QInertia => Some RInertia
  | QComp i => option_map RComp (idx n i)
  | QAinv b => Some (RLdlt b) | QAinvAba => Some RAinvAba
  | QoLinv _ => Some RoLinv | QoLambda _ _ => Some RoLambda | QoJbar _ _ => Some RoJbar
  | QaLinv _ _ => Some RaLinv | QaLambda _ _ _ => Some RaLambda
  | _ => None
  end.

(** What is seen through the reference now: the same member of the cache
    (articulated_body_cache.h:22-124). *)
Definition seen (r : ref) (ab : body) : res answer :=
  match ab_cache ab with
  | None => UB
  | Some c =>
    let n := ab_dof ab in
    Ok (match r with
        | RTp i => AIso (c_Tp (ca_T c) i)
        | RTw i => AIso (c_Tw (ca_T c) i)
        | RJac => AMots (vec n (c_J (ca_jac c)))
        | RLin => AV3s (map mlin (vec n (c_J (ca_jac c))))
        | RAng => AV3s (map mang (vec n (c_J (ca_jac c))))
        | RCC => AVec (vec n (c_C (ca_cc c)))
        | RGrav => AVec (vec n (c_G (ca_grav c)))
        | RInertia => AMat (mat n n (c_A (ca_crba c)))
        | RComp i => AInr (c_Ic (ca_crba c) i)
        | RLdlt b => AVec (solve (mat n n (c_Afact (ca_crba c))) b)
        | RAinvAba => AMat (mat n n (c_Ainv (ca_aba c)))
        | RoLinv => AMat (o_Linv (ca_op c))
        | RoLambda => AMat (o_Lambda (ca_op c))
        | RoJbar => AMat (o_Jbar (ca_op c))
        | RaLinv => AMat (oa_Linv (ca_oa c))
        | RaLambda => AMat (oa_Lambda (ca_oa c))
        end)
  end.
End Refs.
