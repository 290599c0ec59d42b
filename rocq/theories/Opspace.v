(** src/algorithms/opspace_dynamics.cc *)
From Coq Require Import List Arith ZArith Bool.
From Verif Require Import Scalar Base Spatial Joint Body Kin InvDyn FwdDyn.
Import ListNotations.

Section Opspace.
Context {S : Scal}.
Local Open Scope k_scope.

(** Dynamic Eigen matrices: lists of rows.  Products are given explicit sizes
    (opspace_dynamics.cc). *)
Definition lmat := list (list K).
(** Eigen operator()(i, j), e.g. opspace_dynamics.cc:95-108 *)
Definition ent (A : lmat) (i j : nat) : K := nth j (nth i A nil) 0.
(** Eigen matrix product, e.g. opspace_dynamics.cc:100 *)
Definition lmul (r n c : nat) (A B : lmat) : lmat := mat r c (fun i j => ksum n (fun k => ent A i k * ent B k j)).
(** Eigen transpose(), e.g. opspace_dynamics.cc:99 *)
Definition ltr (r c : nat) (A : lmat) : lmat := mat c r (fun i j => ent A j i).
(** Eigen matrix * vector, e.g. opspace_dynamics.cc:144-147 *)
Definition lmulv (r n : nat) (A : lmat) (x : list K) : list K := vec r (fun i => ksum n (fun k => ent A i k * qk x k)).
(** Eigen Identity(n, n), e.g. opspace_dynamics.cc:30-79 *)
Definition lid (n : nat) : lmat := mat n n (fun i j => if Nat.eqb i j then 1 else 0).
(** Eigen operator-, e.g. opspace_dynamics.cc:30-79 *)
Definition lsub (r c : nat) (A B : lmat) : lmat := mat r c (fun i j => ent A i j - ent B i j).
(** Eigen operator+, e.g. opspace_dynamics.cc:30-79 *)
Definition vadd (a b : list K) : list K := map (fun p => fst p + snd p) (combine a b).
(** rows() and cols(), e.g. opspace_dynamics.cc:95-108 *)
Definition shape (r c : nat) (A : lmat) : bool :=
  Nat.eqb (List.length A) r && forallb (fun row => Nat.eqb (List.length row) c) A.
(** [A.size() == B.size() && A == B] for matrices with the same number of columns
    (opspace_dynamics.cc:81-123). *)
Fixpoint leqb (A B : lmat) : bool :=
  match A, B with
  | nil, nil => true
  | a :: A, b :: B => veqb a b && leqb A B
  | _, _ => false
  end.

(** Eigen LDLT::solve (one column at a time) and ctrl_utils::PseudoInverse(A, eps,
    &is_singular), external: oracles. *)
Variable solve : lmat -> list K -> list K.
Variable pinv : lmat -> K -> lmat * bool.

(** opspace_dynamics.cc:95-108 *)
Definition ops_inertia_inverse (ab : body) (J : lmat) (c : cache) : cache :=
  let d := ca_op c in
  if is_lambda_inv d && leqb (o_J d) J then c
  else
    let n := ab_dof ab in
    let m := List.length J in
    let c := ensure_crba_inv ab c in
    let cols := map (solve (mat n n (c_Afact (ca_crba c)))) J in
    let X := ltr m n cols in
    with_op c (OD J (o_eps d) false (o_Lambda d) true (lmul m n m J X) X (o_singular d) false (o_Jbar d)).
(** opspace_dynamics.cc:81-93 *)
Definition ops_inertia (ab : body) (J : lmat) (eps : K) (c : cache) : cache :=
  let d := ca_op c in
  if is_lambda d && leqb (o_J d) J && keq (o_eps d) eps then c
  else
    let c := ops_inertia_inverse ab J c in
    let d := ca_op c in
    let '(Lam, sing) := pinv (o_Linv d) eps in
    with_op c (OD (o_J d) eps true Lam (is_lambda_inv d) (o_Linv d) (o_AinvJt d) sing (is_jbar d) (o_Jbar d)).
(** opspace_dynamics.cc:110-123 *)
Definition ops_jbar (ab : body) (J : lmat) (eps : K) (c : cache) : cache :=
  let d := ca_op c in
  if is_jbar d && leqb (o_J d) J && keq (o_eps d) eps then c
  else
    let c := ops_inertia ab J eps c in
    let d := ca_op c in
    let n := ab_dof ab in
    let m := List.length J in
    with_op c (OD (o_J d) (o_eps d) (is_lambda d) (o_Lambda d) (is_lambda_inv d) (o_Linv d) (o_AinvJt d)
                  (o_singular d) true (lmul n m m (o_AinvJt d) (o_Lambda d))).

(** A Jacobian argument has one column per joint; otherwise Eigen's size
    checks fail (opspace_dynamics.cc:22-159). *)
Definition with_J {A} (J : lmat) (ab : body) (f : cache -> res (cache * A)) : res (body * A) :=
  if shape (List.length J) (ab_dof ab) J then on_cache ab f else UB.

(** opspace_dynamics.cc:95-108 as called from the API *)
Definition q_ops_InertiaInverse (J : lmat) (ab : body) : res (body * lmat) :=
  with_J J ab (fun c => let c := ops_inertia_inverse ab J c in Ok (c, o_Linv (ca_op c))).
(** opspace_dynamics.cc:81-93 as called from the API *)
Definition q_ops_Inertia (J : lmat) (eps : K) (ab : body) : res (body * lmat) :=
  with_J J ab (fun c => let c := ops_inertia ab J eps c in Ok (c, o_Lambda (ca_op c))).
(** opspace_dynamics.cc:110-124 as called from the API *)
Definition q_ops_JacobianDynamicInverse (J : lmat) (eps : K) (ab : body) : res (body * lmat) :=
  with_J J ab (fun c => let c := ops_jbar ab J eps c in Ok (c, o_Jbar (ca_op c))).
(** opspace_dynamics.cc:22-28 *)
Definition q_ops_IsSingular (J : lmat) (eps : K) (ab : body) : res (body * bool) :=
  with_J J ab (fun c => let c := ops_inertia ab J eps c in Ok (c, o_singular (ca_op c))).

(** J_bar^T x (opspace_dynamics.cc:126-159). *)
Definition jbar_t (ab : body) (J : lmat) (c : cache) (x : list K) : list K :=
  lmulv (List.length J) (ab_dof ab) (ltr (ab_dof ab) (List.length J) (o_Jbar (ca_op c))) x.

(** SpatialMotiond::matrix(): the six coefficients
    (spatial_motion_base.h; used at opspace_dynamics.cc:126-142). *)
Definition m6 (m : motion) : list K :=
  [vx (mlin m); vy (mlin m); vz (mlin m); vx (mang m); vy (mang m); vz (mang m)].

(** opspace_dynamics.cc:126-142 *)
Definition ops_cc (ab : body) (J : lmat) (link : Z) (eps : K) (c : cache) : res (cache * list K) :=
  if negb (Nat.eqb (List.length J) 6) then Throw
  else match idx (ab_dof ab) link with
  | None => UB
  | Some l =>
    let c := ops_jbar ab J eps c in
    let c := ensure_cc ab c in
    let mu := jbar_t ab J c (vec (ab_dof ab) (c_C (ca_cc c))) in
    let c := ops_inertia ab J 0 c in
    let c := ensure_Tw ab c in
    let acc := mact (Iso (rot (c_Tw (ca_T c) l)) v3zero) (c_cc (ca_cc c) l) in
    let x := lmulv 6 6 (o_Lambda (ca_op c)) (m6 acc) in
    Ok (c, vec 6 (fun i => qk mu i - qk x i))
  end.
(** opspace_dynamics.cc:126-142 as called from the API *)
Definition q_ops_CentrifugalCoriolis (J : lmat) (link : Z) (eps : K) (ab : body) : res (body * list K) :=
  with_J J ab (ops_cc ab J link eps).
(** opspace_dynamics.cc:144-147 *)
Definition ops_gravity (ab : body) (J : lmat) (eps : K) (c : cache) : cache * list K :=
  let c := ensure_grav ab (ops_jbar ab J eps c) in
  (c, jbar_t ab J c (vec (ab_dof ab) (c_G (ca_grav c)))).
(** opspace_dynamics.cc:144-147 as called from the API *)
Definition q_ops_Gravity (J : lmat) (eps : K) (ab : body) : res (body * list K) :=
  with_J J ab (fun c => Ok (ops_gravity ab J eps c)).
(** opspace_dynamics.cc:149-153 *)
Definition ops_external (ab : body) (J : lmat) (fe : fmap) (eps : K) (c : cache) : cache * list K :=
  let '(c, tau) := ext_torques ab fe (ops_jbar ab J eps c) in
  (c, jbar_t ab J c (vec (ab_dof ab) tau)).
(** opspace_dynamics.cc:149-153 as called from the API *)
Definition q_ops_ExternalForces (J : lmat) (fe : fmap) (eps : K) (ab : body) : res (body * list K) :=
  with_J J ab (fun c => Ok (ops_external ab J fe eps c)).
(** opspace_dynamics.cc:155-159: the third argument of spatial_dyn::Friction
    (inverse_dynamics.h:106-107) is [bool compensate]; the band is the default 0.01. *)
Definition ops_friction (ab : body) (J : lmat) (tau : list K) (eps stic : K) (c : cache) : cache * list K :=
  let c := ops_jbar ab J eps c in
  (c, jbar_t ab J c (vec (ab_dof ab) (friction_arr ab (qk tau) (negb (keq stic 0)) (klit 1 100)))).
(** opspace_dynamics.cc:155-159 as called from the API *)
Definition q_ops_Friction (J : lmat) (tau : list K) (eps stic : K) (ab : body) : res (body * list K) :=
  if Nat.ltb (List.length tau) (ab_dof ab) then UB
  else with_J J ab (fun c => Ok (ops_friction ab J tau eps stic c)).

(** options.h:166-207 *)
Record ops_opts := OpsOpts { p_grav : bool; p_cc : bool; p_fric : bool; p_svd : K; p_stic : K; p_facc : K }.

(** opspace_dynamics.cc:44-48; [norm] is sqrt of the sum of squares and
    [normalized()] divides by it. *)
Definition lnorm (x : list K) : K := ksqrt (fold_left (fun s a => s + a * a) x 0).
(** opspace_dynamics.cc:30-79, the limit f_max *)
Definition clip_force (fmax : K) (F : list K) : list K :=
  if klt 0 fmax then
    if klt fmax (lnorm F) then map (fun x => fmax * (x / lnorm F)) F else F
  else F.

(** opspace_dynamics.cc:30-78.  [N]: None = nullptr, Some M = the pointed-to
    matrix, [Some nil] = size 0.  Returns the new N and the torques.
    [fe_empty] is f_external.empty(). *)
Definition ops_inverse_dynamics (ab : body) (J : lmat) (ddx : list K) (N : option lmat)
    (fe : fmap) (fe_empty : bool) (o : ops_opts) (c : cache) : res (cache * (option lmat * list K)) :=
  let n := ab_dof ab in
  let m := List.length J in
  let Jx := match N with Some ((_ :: _) as M) => lmul m n n J M | _ => J end in
  let c := ops_inertia ab Jx (p_svd o) c in
  let F := clip_force (p_facc o) (lmulv m m (o_Lambda (ca_op c)) ddx) in
  let '(c, F) := if fe_empty then (c, F)
                 else let '(c, x) := ops_external ab Jx fe (p_svd o) c in (c, vadd F x) in
  let '(c, F) := if p_grav o then let '(c, x) := ops_gravity ab Jx (p_svd o) c in (c, vadd F x) else (c, F) in
  bind (if p_cc o then bind (ops_cc ab Jx (ktrunc (p_svd o)) 0 c) (fun '(c, x) => Ok (c, vadd F x))
        else Ok (c, F)) (fun '(c, F) =>
  let '(c, F) :=
    if p_fric o then
      let '(c, x) := ops_friction ab Jx (lmulv n m (ltr m n Jx) F) (p_svd o) (p_stic o) c in (c, vadd F x)
    else (c, F) in
  let '(c, N) :=
    match N with
    | None => (c, None)
    | Some M =>
      let c := ops_jbar ab Jx (p_svd o) c in
      let P := lsub n n (lid n) (lmul n m n (o_Jbar (ca_op c)) Jx) in
      (c, Some (match M with nil => P | _ => lmul n n n P M end))
    end in
  Ok (c, (N, lmulv n m (ltr m n Jx) F))).
(** opspace_dynamics.cc:30-79 as called from the API *)
Definition q_ops_InverseDynamics (J : lmat) (ddx : list K) (N : option lmat) (fe : fmap) (fe_empty : bool)
    (o : ops_opts) (ab : body) : res (body * (option lmat * list K)) :=
  if negb (Nat.eqb (List.length ddx) (List.length J)) then UB
  else match N with
  | Some ((_ :: _) as M) => if shape (ab_dof ab) (ab_dof ab) M
                            then with_J J ab (ops_inverse_dynamics ab J ddx N fe fe_empty o) else UB
  | _ => with_J J ab (ops_inverse_dynamics ab J ddx N fe fe_empty o)
  end.

End Opspace.
