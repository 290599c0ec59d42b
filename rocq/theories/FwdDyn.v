(** src/algorithms/forward_dynamics.cc *)
From Coq Require Import List Arith ZArith Bool.
From Verif Require Import Scalar Base Spatial Joint Body Kin InvDyn.
Import ListNotations.

Section FwdDyn.
Context {S : Scal}.
Local Open Scope k_scope.

(** Eigen::LDLT<MatrixXd>(A).solve(b), external: an oracle. *)
Variable solve : list (list K) -> list K -> list K.

(** forward_dynamics.cc:137-144 *)
Definition ensure_crba_inv (ab : body) (c : cache) : cache :=
  if is_crba_inv (ca_crba c) then c
  else let c := ensure_crba ab c in
       let d := ca_crba c in
       with_crba c (BD (is_crba d) (c_Ic d) (c_A d) true (c_A d)).
(** The factorised matrix, as seen through [solve] on any right-hand side
    (forward_dynamics.cc:137-144). *)
Definition q_InertiaInverse_solve (b : list K) (ab : body) : res (body * list K) :=
  if Nat.eqb (List.length b) (ab_dof ab) then
    on_cache ab (fun c => let c := ensure_crba_inv ab c in
                          Ok (c, solve (mat (ab_dof ab) (ab_dof ab) (c_Afact (ca_crba c))) b))
  else UB.

(** forward_dynamics.cc:21-30 *)
Definition forward_dynamics (ab : body) (tau : list K) (fe : fmap) (o : id_opts) (c : cache)
    : cache * list K :=
  let n := ab_dof ab in
  let '(c, b) := inverse_dynamics ab (vec n (fun _ => 0)) fe (IdOpts (o_grav o) (o_cc o) false (klit 1 100)) c in
  let dtau := fun i => qk tau i - b i in
  let dtau := if o_fric o then fun i => dtau i - friction_arr ab dtau false (o_stic o) i else dtau in
  let c := ensure_crba_inv ab c in
  (c, solve (mat n n (c_Afact (ca_crba c))) (vec n dtau)).
(** forward_dynamics.cc:21-30 as called from the API *)
Definition q_ForwardDynamics (tau : list K) (fe : fmap) (o : id_opts) (ab : body) : res (body * list K) :=
  if Nat.eqb (List.length tau) (ab_dof ab) then
    on_cache ab (fun c => let '(c, ddq) := forward_dynamics ab tau fe o c in Ok (c, ddq))
  else UB.

(** forward_dynamics.cc:42-70, body of the first forward pass. *)
Definition aba_fwd_step (ab : body) (Tp Tw : arr iso) (velc abac : bool) (o : id_opts) (fe : fmap)
    (i : nat) (st : arr motion * arr motion * arr i6 * arr force)
    : arr motion * arr motion * arr i6 * arr force :=
  let '(v, a, Ia, f) := st in
  let s := sub_at ab i in
  let I := inertia_at ab i in
  let dqi := if o_cc o then qk (ab_dq ab) i else 0 in
  let v := if negb velc || negb (o_cc o) then upd v i (vel_at ab Tp v dqi i) else v in
  let ai := match par ab i with None => mzero | Some _ => mcross (v i) (mscale dqi s) end in
  let Ia := if abac then Ia else upd Ia i (i6_of I) in
  let fi := fcross (v i) (imul I (v i)) in
  let fi := match fe i with None => fi | Some x => fsub fi (fact (iso_inv (Tw i)) x) end in
  (v, upd a i ai, Ia, upd f i fi).

(** forward_dynamics.cc:78-85 (and 168-175): articulated inertia update. *)
Definition aba_inertia (ab : body) (Tp : arr iso) (abac : bool) (i : nat)
    (st : arr i6 * arr force * arr K) : arr i6 * arr force * arr K :=
  let '(Ia, h, d) := st in
  if abac then st else
  let hi := i6mul (Ia i) (sub_at ab i) in
  let di := mdot (sub_at ab i) hi in
  let h := upd h i hi in
  let d := upd d i di in
  match par ab i with
  | None => (Ia, h, d)
  | Some p =>
    let Ii := i6sub (Ia i) (i6outer hi di) in
    let Ia := upd Ia i Ii in
    (upd Ia p (i6add (Ia p) (i6act (Tp i) Ii)), h, d)
  end.

(** forward_dynamics.cc:87-110: joint torque left after bias (and friction). *)
Definition aba_tau (ab : body) (o : id_opts) (i : nat) (tau_i : K) : K :=
  if o_fric o then
    let j := rb_joint (rb_at ab i) in
    let dqi := qk (ab_dq ab) i in
    let t := tau_i - jviscous j * dqi in
    let fc := jcoulomb j * signum dqi (o_stic o) in
    let fc := if keq fc 0 then kmin (kabs t) (jcoulomb j + jstiction j) * signum t 0 else fc in
    t - fc
  else tau_i.

(** forward_dynamics.cc:75-116, backward pass body. *)
Definition aba_back_step (ab : body) (Tp : arr iso) (abac : bool) (o : id_opts) (tau : list K)
    (a : arr motion) (i : nat) (st : arr i6 * arr force * arr K * arr force * arr K)
    : arr i6 * arr force * arr K * arr force * arr K :=
  let '(Ia, h, d, f, ddq) := st in
  let '(Ia, h, d) := aba_inertia ab Tp abac i (Ia, h, d) in
  let x := aba_tau ab o i (qk tau i - mdot (sub_at ab i) (f i)) / d i in
  let ddq := upd ddq i x in
  let f := match par ab i with
           | None => f
           | Some p => upd f p (fadd (f p) (fact (Tp i) (fadd (fadd (f i) (i6mul (Ia i) (a i))) (fscale x (h i)))))
           end in
  (Ia, h, d, f, ddq).

(** forward_dynamics.cc:119-133, last pass body. *)
Definition aba_last_step (ab : body) (Tp : arr iso) (o : id_opts) (h : arr force) (d : arr K)
    (i : nat) (st : arr motion * arr K) : arr motion * arr K :=
  let '(a, ddq) := st in
  let a1 := match par ab i with
            | None => if o_grav o then mact (iso_inv (Tp i)) (mopp (ab_g ab)) else mzero
            | Some p => madd (a i) (mact (iso_inv (Tp i)) (a p))
            end in
  let x := ddq i - mdot a1 (h i) / d i in
  (upd a i (madd a1 (mscale x (sub_at ab i))), upd ddq i x).

(** forward_dynamics.cc:32-135 *)
Definition forward_dynamics_aba (ab : body) (tau : list K) (fe : fmap) (o : id_opts) (c : cache)
    : cache * arr K :=
  let n := ab_dof ab in
  let c := if has_ext ab fe then ensure_Tw ab c else c in
  let c := if has_child ab || (o_grav o && has_root ab) then ensure_Tp ab c else c in
  let Tp := c_Tp (ca_T c) in
  let D := ca_aba c in
  let abac := is_aba D in
  let '(v, a, Ia, f) := for_up n (aba_fwd_step ab Tp (c_Tw (ca_T c)) (is_vel (ca_vel c)) abac o fe)
                               (c_v (ca_vel c), c_a (ca_rnea c), c_Ia D, c_f (ca_rnea c)) in
  let '(Ia, h, d, f, ddq) := for_down n (aba_back_step ab Tp abac o tau a) (Ia, c_h D, c_d D, f, fun _ => 0) in
  let '(a, ddq) := for_up n (aba_last_step ab Tp o h d) (a, ddq) in
  (with_aba (with_rnea (with_vel c (VD (o_cc o) v)) (RD a f))
            (AD true Ia h d (is_Ainv D) (c_Ainv D) (c_P D) (c_AA D)), ddq).
(** forward_dynamics.cc:32-135 as called from the API *)
Definition q_ForwardDynamicsAba (tau : list K) (fe : fmap) (o : id_opts) (ab : body) : res (body * list K) :=
  if Nat.eqb (List.length tau) (ab_dof ab) then
    on_cache ab (fun c => let '(c, ddq) := forward_dynamics_aba ab tau fe o c in Ok (c, vec (ab_dof ab) ddq))
  else UB.

(** forward_dynamics.cc:177-182, inner loop of the backward pass. *)
Definition ainv_back_inner (ab : body) (Tp : arr iso) (h : arr force) (d : arr K) (i : nat)
    (st : arr2 K * arr2 force) (j : nat) : arr2 K * arr2 force :=
  let '(X, P) := st in
  let x := ((if Nat.eqb i j then 1 else 0) - mdot (sub_at ab i) (P i j)) / d i in
  let X := upd2 X i j x in
  match par ab i with
  | None => (X, P)
  | Some p => (X, upd2 P p j (fadd (P p j) (fact (Tp i) (fadd (P i j) (fscale x (h i))))))
  end.
(** forward_dynamics.cc:166-184, one round of the backward pass *)
Definition ainv_back_step (ab : body) (Tp : arr iso) (abac : bool) (i : nat)
    (st : arr i6 * arr force * arr K * (arr2 K * arr2 force))
    : arr i6 * arr force * arr K * (arr2 K * arr2 force) :=
  let '(Ia, h, d, XP) := st in
  let '(Ia, h, d) := aba_inertia ab Tp abac i (Ia, h, d) in
  (Ia, h, d, fold_left (ainv_back_inner ab Tp h d i) (subt_at ab i) XP).
(** forward_dynamics.cc:186-197, last pass. *)
Definition ainv_last_inner (ab : body) (Tp : arr iso) (h : arr force) (d : arr K) (i : nat)
    (st : arr2 K * arr2 motion) (j : nat) : arr2 K * arr2 motion :=
  let '(X, A) := st in
  let aij := match par ab i with
             | None => A i j
             | Some p => madd (A i j) (mact (iso_inv (Tp i)) (A p j))
             end in
  let x := X i j - mdot aij (h i) / d i in
  let X := upd2 X i j x in
  let X := if Nat.eqb i j then X else upd2 X j i x in
  (X, upd2 A i j (madd aij (mscale x (sub_at ab i)))).
(** forward_dynamics.cc:146-200 *)
Definition ensure_Ainv (ab : body) (c : cache) : cache :=
  if is_Ainv (ca_aba c) then c
  else
    let n := ab_dof ab in
    let c := if has_child ab then ensure_Tp ab c else c in
    let Tp := c_Tp (ca_T c) in
    let D := ca_aba c in
    let Ia := if is_aba D then c_Ia D
              else for_up n (fun i a => upd a i (i6_of (inertia_at ab i))) (c_Ia D) in
    let '(Ia, h, d, (X, P)) :=
      for_down n (ainv_back_step ab Tp (is_aba D)) (Ia, c_h D, c_d D, (c_Ainv D, fun _ _ => fzero)) in
    let '(X, A) :=
      for_up n (fun i st => fold_left (ainv_last_inner ab Tp h d i) (subt_at ab i) st) (X, fun _ _ => mzero) in
    with_aba c (AD true Ia h d true X P A).
(** forward_dynamics.cc:146-200 as called from the API *)
Definition q_InertiaInverseAba (ab : body) : res (body * list (list K)) :=
  on_cache ab (fun c => let c := ensure_Ainv ab c in
                        Ok (c, mat (ab_dof ab) (ab_dof ab) (c_Ainv (ca_aba c)))).

End FwdDyn.
