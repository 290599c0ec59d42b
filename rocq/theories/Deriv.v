(** src/algorithms/dynamics_derivatives.cc *)
From Coq Require Import List Arith ZArith Bool.
From Verif Require Import Scalar Base Spatial Joint Body Kin InvDyn.
Import ListNotations.

Section Deriv.
Context {S : Scal}.
Local Open Scope k_scope.

(** dynamics_derivatives.cc:30-34 and 121-125: InverseDynamics with the crba flag
    switched off, then restored. *)
Definition id_rnea (ab : body) (ddq : list K) (fe : fmap) (o : id_opts) (c : cache) : cache :=
  let b := is_crba (ca_crba c) in
  let '(c, _) := inverse_dynamics ab ddq fe o (clear_crba c) in
  let d := ca_crba c in
  with_crba c (BD b (c_Ic d) (c_A d) (is_crba_inv d) (c_Afact d)).

(** One row assignment on an array of per-link 6 x n matrices. *)
Definition row {A} (f : arr2 A) (i : nat) (g : nat -> A) : arr2 A := fun a => if Nat.eqb a i then g else f a.

(** dynamics_derivatives.cc:129-157 *)
Definition vd_fwd_step (ab : body) (Tp : arr iso) (v : arr motion) (i : nat)
    (st : arr2 motion * arr2 motion * arr2 force) : arr2 motion * arr2 motion * arr2 force :=
  let '(dv, da, df) := st in
  let s := sub_at ab i in
  let I := inertia_at ab i in
  let dqi := qk (ab_dq ab) i in
  let dvi := fun j => if Nat.eqb j i then s
                      else match par ab i with
                           | Some p => if Nat.ltb j i then mact (iso_inv (Tp i)) (dv p j) else dv i j
                           | None => dv i j
                           end in
  let da1 := fun j => if Nat.leb j i then mcross (dvi j) (mscale dqi s) else da i j in
  let da2 := fun j => if Nat.eqb j i then madd (da1 j) (mcross (v i) s) else da1 j in
  let dai := fun j => match par ab i with
                      | Some p => if Nat.leb j i then madd (da2 j) (mact (iso_inv (Tp i)) (da p j)) else da2 j
                      | None => da2 j
                      end in
  let h := imul I (v i) in
  let dfi := fun j => if Nat.leb j i
                      then fadd (fadd (imul I (dai j)) (fcross (dvi j) h)) (fcross (v i) (imul I (dvi j)))
                      else df i j in
  (row dv i dvi, row da i dai, row df i dfi).
(** dynamics_derivatives.cc:160-172 *)
Definition vd_back_step (ab : body) (Tp : arr iso) (i : nat) (st : arr2 K * arr2 force) : arr2 K * arr2 force :=
  let '(dtau, df) := st in
  let dtau := row dtau i (fun j => mdot (sub_at ab i) (df i j)) in
  match par ab i with
  | None => (dtau, df)
  | Some p => (dtau, row df p (fun j => fadd (df p j) (fact (Tp i) (df i j))))
  end.
(** dynamics_derivatives.cc:104-175 *)
Definition velocity_derivative (ab : body) (ddq : list K) (fe : fmap) (o : id_opts) (c : cache) : cache * arr2 K :=
  if negb (o_cc o) then (c, fun _ _ => 0)
  else
    let n := ab_dof ab in
    let c := id_rnea ab ddq fe o c in
    let c := if has_child ab then ensure_Tp ab c else c in
    let Tp := c_Tp (ca_T c) in
    let '(dv, da, df) := for_up n (vd_fwd_step ab Tp (c_v (ca_vel c)))
                                (fun _ _ => mzero, fun _ _ => mzero, fun _ _ => fzero) in
    let '(dtau, _) := for_down n (vd_back_step ab Tp) (fun _ _ => 0, df) in
    (c, dtau).
(** dynamics_derivatives.cc:104-175 as called from the API *)
Definition q_VelocityDerivative (ddq : list K) (fe : fmap) (o : id_opts) (ab : body) : res (body * list (list K)) :=
  if o_cc o then
    if Nat.eqb (List.length ddq) (ab_dof ab) then
      on_cache ab (fun c => let '(c, t) := velocity_derivative ab ddq fe o c in
                            Ok (c, mat (ab_dof ab) (ab_dof ab) t))
    else UB
  else on_cache ab (fun c => let '(c, t) := velocity_derivative ab ddq fe o c in
                             Ok (c, mat (ab_dof ab) (ab_dof ab) t)).

(** dynamics_derivatives.cc:16-102.  Line 60 adds [da[parent]], a 6 x dof matrix, to
    the single column [da[i].col(i)]: a size mismatch (undefined) unless dof = 1,
    reached as soon as some link has a parent.  Without such a link the
    function is the plain root-only computation; for a root i only column i of
    da[i], df[i] and dtau is non-zero. *)
Definition pd_root_col (ab : body) (Tw : arr iso) (o : id_opts) (v : arr motion) (i : nat) : force :=
  let s := sub_at ab i in
  let I := inertia_at ab i in
  let da := if o_grav o then msub mzero (mcross (mact (iso_inv (Tw i)) (ab_g ab)) s) else mzero in
  if o_cc o then
    let da := madd da (mcross mzero (mscale (qk (ab_dq ab) i) s)) in
    fadd (fadd (imul I da) (fcross mzero (imul I (v i)))) (fcross (v i) (imul I mzero))
  else imul I da.
(** dynamics_derivatives.cc:16-102 as called from the API *)
Definition q_PositionDerivative (ddq : list K) (fe : fmap) (o : id_opts) (ab : body) : res (body * list (list K)) :=
  let n := ab_dof ab in
  if Nat.eqb (List.length ddq) n then
    on_cache ab (fun c =>
      if has_child ab && negb (Nat.eqb n 1) then UB
      else
        let c := id_rnea ab ddq fe o c in
        let c := if o_grav o && has_root ab || has_ext ab fe then ensure_Tw ab c else c in
        let f := for_up n (fun i f => match fe i with
                   | None => f
                   | Some x => upd f i (fsub (f i) (fcross (sub_at ab i) (fact (iso_inv (c_Tw (ca_T c) i)) x)))
                   end) (c_f (ca_rnea c)) in
        let c := with_rnea c (RD (c_a (ca_rnea c)) f) in
        Ok (c, mat n n (fun i j => mdot (sub_at ab i)
                  (if Nat.eqb i j then pd_root_col ab (c_Tw (ca_T c)) o (c_v (ca_vel c)) i
                   else if o_cc o && Nat.ltb j i
                   then let z := imul (inertia_at ab i) (madd mzero (mcross mzero (mscale (qk (ab_dq ab) i) (sub_at ab i)))) in
                        fadd (fadd z (fcross mzero (imul (inertia_at ab i) (c_v (ca_vel c) i)))) (fcross (c_v (ca_vel c) i) (imul (inertia_at ab i) mzero))
                   else if Nat.ltb j i then imul (inertia_at ab i) mzero else fzero))))
  else UB.

End Deriv.
