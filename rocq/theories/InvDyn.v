(** src/algorithms/inverse_dynamics.cc *)
From Coq Require Import List Arith ZArith Bool.
From Verif Require Import Scalar Base Spatial Joint Body Kin.
Import ListNotations.

Section InvDyn.
Context {S : Scal}.
Local Open Scope k_scope.

(** [std::map<size_t, SpatialForced>], world-frame wrenches by link (inverse_dynamics.h). *)
Definition fmap := nat -> option force.

(** include/spatial_dyn/structs/options.h:38-69 *)
Record id_opts := IdOpts { o_grav : bool; o_cc : bool; o_fric : bool; o_stic : K }.

(** std::map::find(i) != end(), e.g. inverse_dynamics.cc:45 *)
Definition some_b {A} (x : option A) : bool := match x with Some _ => true | None => false end.
(** Does some link have a parent / no parent / an external force?
    (the branch parent >= 0 of e.g. inverse_dynamics.cc:43-70). *)
Definition has_child (ab : body) : bool := existsb (fun i => some_b (par ab i)) (seq 0 (ab_dof ab)).
(** the branch parent < 0 *)
Definition has_root (ab : body) : bool := existsb (fun i => negb (some_b (par ab i))) (seq 0 (ab_dof ab)).
(** inverse_dynamics.cc:171-197 *)
Definition has_ext (ab : body) (fe : fmap) : bool := existsb (fun i => some_b (fe i)) (seq 0 (ab_dof ab)).

(** Backward pass, shared text of inverse_dynamics.cc:84-91, 131-139, 158-166,
    187-195: out(i) = s . f[i]; f[parent] += T_to_parent(i) * f[i]. *)
Definition back_step (ab : body) (Tp : arr iso) (i : nat) (st : arr K * arr force) : arr K * arr force :=
  let '(out, f) := st in
  let out' := upd out i (mdot (sub_at ab i) (f i)) in
  match par ab i with
  | None => (out', f)
  | Some p => (out', upd f p (fadd (f p) (fact (Tp i) (f i))))
  end.

(** inverse_dynamics.cc:51-54 / 114-117: velocity of link i. *)
Definition vel_at (ab : body) (Tp : arr iso) (v : arr motion) (dqi : K) (i : nat) : motion :=
  match par ab i with
  | None => mscale dqi (sub_at ab i)
  | Some p => madd (mscale dqi (sub_at ab i)) (mact (iso_inv (Tp i)) (v p))
  end.

(** inverse_dynamics.cc:43-80, body of the forward pass of InverseDynamics;
    [velc] is vel.is_computed. *)
Definition id_fwd_step (ab : body) (Tp Tw : arr iso) (velc : bool) (o : id_opts)
    (ddq : list K) (fe : fmap) (i : nat) (st : arr motion * arr motion * arr force)
    : arr motion * arr motion * arr force :=
  let '(v, a, f) := st in
  let s := sub_at ab i in
  let I := inertia_at ab i in
  let dqi := qk (ab_dq ab) i in
  let v := if negb velc && o_cc o then upd v i (vel_at ab Tp v dqi i) else v in
  let a0 := mscale (qk ddq i) s in
  let ai :=
    match par ab i with
    | None =>
      let a1 := if o_grav o then msub a0 (mact (iso_inv (Tw i)) (ab_g ab)) else a0 in
      if o_cc o then madd a1 (mcross (v i) (mscale dqi s)) else a1
    | Some p =>
      if o_cc o then madd a0 (madd (mact (iso_inv (Tp i)) (a p)) (mcross (v i) (mscale dqi s)))
      else madd a0 (mact (iso_inv (Tp i)) (a p))
    end in
  let fi := if o_cc o then fadd (imul I ai) (fcross (v i) (imul I (v i))) else imul I ai in
  let fi := match fe i with
            | None => fi
            | Some x => fsub fi (fact (iso_inv (Tw i)) x)
            end in
  (v, upd a i ai, upd f i fi).

(** inverse_dynamics.cc:199-221 *)
Definition friction1 (j : joint) (dq tau : K) (compensate : bool) (eps : K) : K :=
  let fc := jcoulomb j * signum dq eps in
  let fc := if keq fc 0 then
              let mu := jcoulomb j + jstiction j in
              let mu := if compensate then mu else kmin mu (kabs tau) in
              mu * signum tau 0
            else fc in
  jviscous j * dq + fc.
(** the loop of inverse_dynamics.cc:199-221 *)
Definition friction_arr (ab : body) (tau : arr K) (compensate : bool) (eps : K) : arr K :=
  fun i => friction1 (rb_joint (rb_at ab i)) (qk (ab_dq ab) i) (tau i) compensate eps.
(** inverse_dynamics.cc:199-221 as called from the API *)
Definition Friction (ab : body) (tau : list K) (compensate : bool) (eps : K) : res (list K) :=
  if Nat.ltb (List.length tau) (ab_dof ab) then UB
  else Ok (vec (ab_dof ab) (friction_arr ab (qk tau) compensate eps)).

(** inverse_dynamics.cc:171-197; scratch space is grav.f_g. *)
Definition ext_f0 (ab : body) (Tw : arr iso) (fe : fmap) (i : nat) : force :=
  match fe i with
  | Some x => fact (iso_inv (Tw i)) (fopp x)
  | None => fzero
  end.
(** inverse_dynamics.cc:171-197 *)
Definition ext_torques (ab : body) (fe : fmap) (c : cache) : cache * arr K :=
  let c := if has_child ab then ensure_Tp ab c else c in
  let c := if has_ext ab fe then ensure_Tw ab c else c in
  let d := ca_grav c in
  let f0 := for_up (ab_dof ab) (fun i f => upd f i (ext_f0 ab (c_Tw (ca_T c)) fe i)) (c_fg d) in
  let '(tau, f) := for_down (ab_dof ab) (back_step ab (c_Tp (ca_T c))) (fun _ => 0, f0) in
  (with_grav c (GD (is_grav d) f (c_G d)), tau).
(** inverse_dynamics.cc:171-197 as called from the API *)
Definition q_ExternalTorques (fe : fmap) (ab : body) : res (body * list K) :=
  on_cache ab (fun c => let '(c, tau) := ext_torques ab fe c in Ok (c, vec (ab_dof ab) tau)).

(** inverse_dynamics.cc:99-142, forward pass body. *)
Definition cc_fwd_step (ab : body) (Tp : arr iso) (velc : bool) (i : nat)
    (st : arr motion * arr motion * arr force) : arr motion * arr motion * arr force :=
  let '(v, cc, f) := st in
  let s := sub_at ab i in
  let I := inertia_at ab i in
  let dqi := qk (ab_dq ab) i in
  let v := if velc then v else upd v i (vel_at ab Tp v dqi i) in
  let ci := match par ab i with
            | None => mzero
            | Some p => madd (mact (iso_inv (Tp i)) (cc p)) (mcross (v i) (mscale dqi s))
            end in
  (v, upd cc i ci, upd f i (fadd (imul I ci) (fcross (v i) (imul I (v i))))).
(** inverse_dynamics.cc:99-142 *)
Definition ensure_cc (ab : body) (c : cache) : cache :=
  if is_cc (ca_cc c) then c
  else
    let c := if has_child ab then ensure_Tp ab c else c in
    let Tp := c_Tp (ca_T c) in
    let d := ca_cc c in
    let '(v, cc, f) := for_up (ab_dof ab) (cc_fwd_step ab Tp (is_vel (ca_vel c)))
                              (c_v (ca_vel c), c_cc d, c_fc d) in
    let '(C, f) := for_down (ab_dof ab) (back_step ab Tp) (c_C d, f) in
    with_cc (with_vel c (VD true v)) (CD true cc f C).
(** inverse_dynamics.cc:99-142 as called from the API *)
Definition q_CentrifugalCoriolis (ab : body) : res (body * list K) :=
  on_cache ab (fun c => let c := ensure_cc ab c in Ok (c, vec (ab_dof ab) (c_C (ca_cc c)))).

(** inverse_dynamics.cc:144-169 *)
Definition grav_f0 (ab : body) (Tw : arr iso) (i : nat) : force :=
  imul (inertia_at ab i) (mact (iso_inv (Tw i)) (mopp (ab_g ab))).
(** inverse_dynamics.cc:144-169 *)
Definition ensure_grav (ab : body) (c : cache) : cache :=
  if is_grav (ca_grav c) then c
  else
    let c := if Nat.ltb 0 (ab_dof ab) then ensure_Tw ab c else c in
    let c := if has_child ab then ensure_Tp ab c else c in
    let d := ca_grav c in
    let f0 := for_up (ab_dof ab) (fun i f => upd f i (grav_f0 ab (c_Tw (ca_T c)) i)) (c_fg d) in
    let '(G, f) := for_down (ab_dof ab) (back_step ab (c_Tp (ca_T c))) (c_G d, f0) in
    with_grav c (GD true f G).
(** inverse_dynamics.cc:144-169 as called from the API *)
Definition q_Gravity (ab : body) : res (body * list K) :=
  on_cache ab (fun c => let c := ensure_grav ab c in Ok (c, vec (ab_dof ab) (c_G (ca_grav c)))).

(** inverse_dynamics.cc:247-253: walk from link i up its ancestors. *)
Definition crba_up (ab : body) (Tp : arr iso) (i : nat) (st : nat * force * arr2 K) (j : nat)
    : nat * force * arr2 K :=
  let '(child, f, A) := st in
  let f := fact (Tp child) f in
  let x := mdot (sub_at ab j) f in
  (j, f, upd2 (upd2 A i j x) j i x).
(** inverse_dynamics.cc:236-254, loop body. *)
Definition crba_step (ab : body) (Tp : arr iso) (i : nat) (st : arr inertia * arr2 K)
    : arr inertia * arr2 K :=
  let '(Ic, A) := st in
  let Ic := match par ab i with
            | None => Ic
            | Some p => upd Ic p (iadd (Ic p) (iact (Tp i) (Ic i)))
            end in
  let f := imul (Ic i) (sub_at ab i) in
  let A := upd2 A i i (mdot (sub_at ab i) f) in
  let '(_, _, A) := fold_left (crba_up ab Tp i) (tl (up_chain ab i)) (i, f, A) in
  (Ic, A).
(** inverse_dynamics.cc:223-257 *)
Definition ensure_crba (ab : body) (c : cache) : cache :=
  if is_crba (ca_crba c) then c
  else
    let c := if has_child ab then ensure_Tp ab c else c in
    let d := ca_crba c in
    let Ic0 := for_up (ab_dof ab) (fun i a => upd a i (inertia_at ab i)) (c_Ic d) in
    let '(Ic, A) := for_down (ab_dof ab) (crba_step ab (c_Tp (ca_T c))) (Ic0, fun _ _ => 0) in
    with_crba c (BD true Ic A (is_crba_inv d) (c_Afact d)).
(** inverse_dynamics.cc:223-257 as called from the API *)
Definition q_Inertia (ab : body) : res (body * list (list K)) :=
  on_cache ab (fun c => let c := ensure_crba ab c in
                        Ok (c, mat (ab_dof ab) (ab_dof ab) (c_A (ca_crba c)))).
(** inverse_dynamics.cc:259-265 *)
Definition q_CompositeInertia (link : Z) (ab : body) : res (body * inertia) :=
  on_cache ab (fun c =>
    let c := ensure_crba ab c in
    match idx (ab_dof ab) link with None => UB | Some l => Ok (c, c_Ic (ca_crba c) l) end).

(** Row times vector, as Eigen's matrix-vector product, summed left to right
    (e.g. inverse_dynamics.cc:33). *)
Fixpoint ksum (n : nat) (f : nat -> K) : K :=
  match n with O => 0 | Datatypes.S m => ksum m f + f m end.
(** e.g. inverse_dynamics.cc:33 *)
Definition mat_vec (n : nat) (A : arr2 K) (x : nat -> K) : arr K := fun i => ksum n (fun j => A i j * x j).

(** inverse_dynamics.cc:21-97.  Arguments of the wrong length are out-of-range
    accesses / Eigen size mismatches. *)
Definition inverse_dynamics (ab : body) (ddq : list K) (fe : fmap) (o : id_opts) (c : cache)
    : cache * arr K :=
  let n := ab_dof ab in
  if is_crba (ca_crba c) && (negb (o_cc o) || is_cc (ca_cc c)) && (negb (o_grav o) || is_grav (ca_grav c))
  then
    let A := c_A (ca_crba c) in
    let '(c, ext) := ext_torques ab fe c in
    let tau := fun i => mat_vec n A (qk ddq) i + ext i in
    let tau := if o_cc o then fun i => tau i + c_C (ca_cc c) i else tau in
    let tau := if o_grav o then fun i => tau i + c_G (ca_grav c) i else tau in
    let tau := if o_fric o then fun i => tau i + friction_arr ab tau true (o_stic o) i else tau in
    (c, tau)
  else
    let c := if (o_grav o && has_root ab) || has_ext ab fe then ensure_Tw ab c else c in
    let c := if has_child ab then ensure_Tp ab c else c in
    let Tp := c_Tp (ca_T c) in
    let '(v, a, f) := for_up n (id_fwd_step ab Tp (c_Tw (ca_T c)) (is_vel (ca_vel c)) o ddq fe)
                             (c_v (ca_vel c), c_a (ca_rnea c), c_f (ca_rnea c)) in
    let '(tau, f) := for_down n (back_step ab Tp) (fun _ => 0, f) in
    let tau' := if o_fric o then fun i => tau i + friction_arr ab tau true (o_stic o) i else tau in
    (with_rnea (with_vel c (VD (o_cc o) v)) (RD a f), tau').
(** inverse_dynamics.cc:21-97 as called from the API; ddq is used as a vector of size dof *)
Definition q_InverseDynamics (ddq : list K) (fe : fmap) (o : id_opts) (ab : body) : res (body * list K) :=
  if Nat.eqb (List.length ddq) (ab_dof ab) then
    on_cache ab (fun c => let '(c, tau) := inverse_dynamics ab ddq fe o c in Ok (c, vec (ab_dof ab) tau))
  else UB.

End InvDyn.
