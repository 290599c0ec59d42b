(** src/algorithms/opspace_dynamics_aba.cc *)
From Coq Require Import List Arith ZArith Bool.
From Verif Require Import Scalar Base Spatial Joint Body Kin InvDyn FwdDyn Opspace.
Import ListNotations.

Section OpspaceAba.
Context {S : Scal}.
Local Open Scope k_scope.
Variable pinv : list (list K) -> K -> list (list K) * bool.

(** Unit spatial force k (column k of SpatialForce6d::Identity()). *)
Definition unit_force (k : nat) : force :=
  let e := fun i => if Nat.eqb i k then 1 else 0 in
  Frc (V3 (e 0%nat) (e 1%nat) (e 2%nat)) (V3 (e 3%nat) (e 4%nat) (e 5%nat)).

(** Apply a function to the six columns (opspace_dynamics_aba.cc:33-89). *)
Definition cols6 {A} (f : nat -> A) (old : nat -> A) : nat -> A := fun k => if Nat.ltb k 6 then f k else old k.

(** opspace_dynamics_aba.cc:45-52 (aba.I_a without loads). *)
Definition oa_fwd_step (ab : body) (Tw : arr iso) (abac : bool) (link : nat) (i : nat)
    (st : arr i6 * arr2 force) : arr i6 * arr2 force :=
  let '(Ia, p) := st in
  let Ia := if abac then Ia else upd Ia i (i6_of (rb_inertia (rb_at ab i))) in
  let pi := if Nat.eqb i link
            then fun k => fact (Iso (m3tr (rot (Tw i))) v3zero) (fopp (unit_force k))
            else fun _ => fzero in
  (Ia, fun j => if Nat.eqb j i then pi else p j).
(** opspace_dynamics_aba.cc:55-72 *)
Definition oa_back_step (ab : body) (Tp : arr iso) (abac : bool) (i : nat)
    (st : arr i6 * arr force * arr K * (arr2 force * arr2 K))
    : arr i6 * arr force * arr K * (arr2 force * arr2 K) :=
  let '(Ia, h, d, (p, u)) := st in
  let '(Ia, h, d) := aba_inertia ab Tp abac i (Ia, h, d) in
  let ui := fun k => mdot (mopp (sub_at ab i)) (p i k) in
  let u := fun j => if Nat.eqb j i then ui else u j in
  let p := match par ab i with
           | None => p
           | Some q => fun j => if Nat.eqb j q
               then fun k => fadd (p q k) (fact (Tp i) (fadd (p i k) (Frc (v3scale (ui k) (v3div (flin (h i)) (d i)))
                                                                          (v3scale (ui k) (v3div (fang (h i)) (d i))))))
               else p j
           end in
  (Ia, h, d, (p, u)).
(** opspace_dynamics_aba.cc:75-81, column k. *)
Definition oa_acc (ab : body) (Tp : arr iso) (h : arr force) (d : arr K) (u : arr2 K) (k : nat) (l : list nat) : motion :=
  fold_left (fun a i => let a := mact (iso_inv (Tp i)) a in
                        madd a (mscale ((u i k - mdot a (h i)) / d i) (sub_at ab i))) l mzero.

(** opspace_dynamics_aba.cc:33-89 *)
Definition oa_inertia_inverse (ab : body) (link : nat) (offset : v3) (c : cache) : cache :=
  let o := ca_oa c in
  if is_oa_linv o && Nat.eqb (oa_link o) link && v3eqb (oa_offset o) offset then c
  else
    let n := ab_dof ab in
    let c := ensure_Tw ab c in
    let c := ensure_Tp ab c in
    let Tp := c_Tp (ca_T c) in let Tw := c_Tw (ca_T c) in
    let D := ca_aba c in
    let '(Ia, p) := for_up n (oa_fwd_step ab Tw (is_aba D) link) (c_Ia D, oa_p o) in
    let '(Ia, h, d, (p, u)) := for_down n (oa_back_step ab Tp (is_aba D)) (Ia, c_h D, c_d D, (p, oa_u o)) in
    let Linv := fun k => m6 (mact (Iso (rot (Tw link)) v3zero) (oa_acc ab Tp h d u k (anc_at ab link))) in
    let c := with_aba c (AD true Ia h d (is_Ainv D) (c_Ainv D) (c_P D) (c_AA D)) in
    with_oa c (OAD link offset (oa_eps o) false (oa_Lambda o) true (mat 6 6 (fun i k => qk (Linv k) i)) p u).
(** opspace_dynamics_aba.cc:19-31 *)
Definition oa_inertia (ab : body) (link : nat) (offset : v3) (eps : K) (c : cache) : cache :=
  let o := ca_oa c in
  if is_oa_lambda o && Nat.eqb (oa_link o) link && v3eqb (oa_offset o) offset && keq (oa_eps o) eps then c
  else
    let c := oa_inertia_inverse ab link offset c in
    let o := ca_oa c in
    with_oa c (OAD (oa_link o) (oa_offset o) eps true (fst (pinv (oa_Linv o) eps))
                   (is_oa_linv o) (oa_Linv o) (oa_p o) (oa_u o)).
(** opspace_dynamics_aba.cc:33-89 as called from the API *)
Definition q_ops_InertiaInverseAba (link : Z) (offset : v3) (ab : body) : res (body * lmat) :=
  on_cache ab (fun c => match idx (ab_dof ab) link with
    | None => UB
    | Some l => let c := oa_inertia_inverse ab l offset c in Ok (c, oa_Linv (ca_oa c))
    end).
(** opspace_dynamics_aba.cc:19-31 as called from the API *)
Definition q_ops_InertiaAba (link : Z) (offset : v3) (eps : K) (ab : body) : res (body * lmat) :=
  on_cache ab (fun c => match idx (ab_dof ab) link with
    | None => UB
    | Some l => let c := oa_inertia ab l offset eps c in Ok (c, oa_Lambda (ca_oa c))
    end).

(** opspace_dynamics_aba.cc:98-120 *)
Definition occ_fwd_step (ab : body) (Tp : arr iso) (velc abac : bool) (i : nat)
    (st : arr motion * arr motion * arr i6 * arr force) : arr motion * arr motion * arr i6 * arr force :=
  let '(v, a, Ia, f) := st in
  let I := rb_inertia (rb_at ab i) in
  let dqi := qk (ab_dq ab) i in
  let v := if velc then v else
           upd v i (match par ab i with
                    | None => mscale dqi (sub_at ab i)
                    | Some p => madd (mact (iso_inv (Tp i)) (v p)) (mscale dqi (sub_at ab i))
                    end) in
  let ai := match par ab i with None => mzero | Some _ => mcross (v i) (mscale dqi (sub_at ab i)) end in
  let Ia := if abac then Ia else upd Ia i (i6_of I) in
  (v, upd a i ai, Ia, upd f i (fcross (v i) (imul I (v i)))).
(** opspace_dynamics_aba.cc:125-142 / 182-198: backward passes; [acc] adds I_a * a
    (only in CentrifugalCoriolisAba). *)
Definition occ_back_step (ab : body) (Tp : arr iso) (abac : bool) (acc : bool) (a : arr motion) (i : nat)
    (st : arr i6 * arr force * arr K * arr force * arr K) : arr i6 * arr force * arr K * arr force * arr K :=
  let '(Ia, h, d, f, ddq) := st in
  let '(Ia, h, d) := aba_inertia ab Tp abac i (Ia, h, d) in
  let x := - mdot (sub_at ab i) (f i) / d i in
  let f := match par ab i with
           | None => f
           | Some p => upd f p (fadd (f p) (fact (Tp i)
                         (fadd (if acc then fadd (f i) (i6mul (Ia i) (a i)) else f i) (fscale x (h i)))))
           end in
  (Ia, h, d, f, upd ddq i x).
(** opspace_dynamics_aba.cc:145-154 / 201-210 *)
Definition occ_last (ab : body) (Tp : arr iso) (acc : bool) (ra : arr motion) (h : arr force) (d : arr K)
    (ddq : arr K) (l : list nat) : motion :=
  fold_left (fun a i =>
    let a := match par ab i with
             | None => a
             | Some _ => if acc then madd (mact (iso_inv (Tp i)) a) (ra i) else mact (iso_inv (Tp i)) a
             end in
    madd a (mscale (ddq i - mdot a (h i) / d i) (sub_at ab i))) l mzero.

(** opspace_dynamics_aba.cc:91-158 *)
Definition oa_cc (ab : body) (link : nat) (offset : v3) (eps : K) (c : cache) : cache * list K :=
  let n := ab_dof ab in
  let c := ensure_Tp ab c in
  let Tp := c_Tp (ca_T c) in
  let D := ca_aba c in
  let '(v, a, Ia, f) := for_up n (occ_fwd_step ab Tp (is_vel (ca_vel c)) (is_aba D))
                               (c_v (ca_vel c), c_a (ca_rnea c), c_Ia D, c_f (ca_rnea c)) in
  let '(Ia, h, d, f, ddq) := for_down n (occ_back_step ab Tp (is_aba D) true a) (Ia, c_h D, c_d D, f, fun _ => 0) in
  let c := with_aba (with_rnea (with_vel c (VD true v)) (RD a f))
                    (AD true Ia h d (is_Ainv D) (c_Ainv D) (c_P D) (c_AA D)) in
  let acc := occ_last ab Tp true a h d ddq (anc_at ab link) in
  let c := ensure_Tw ab c in
  let mu := mact (Iso (rot (c_Tw (ca_T c) link)) v3zero) acc in
  let c := oa_inertia ab link offset eps c in
  (c, lmulv 6 6 (oa_Lambda (ca_oa c)) (map kopp (m6 mu))).
(** opspace_dynamics_aba.cc:91-158 as called from the API *)
Definition q_ops_CentrifugalCoriolisAba (link : Z) (offset : v3) (eps : K) (ab : body) : res (body * list K) :=
  on_cache ab (fun c => match idx (ab_dof ab) link with
    | None => UB | Some l => Ok (oa_cc ab l offset eps c) end).

(** opspace_dynamics_aba.cc:168-178 *)
Definition og_fwd_step (ab : body) (Tw : arr iso) (abac : bool) (fe : fmap) (i : nat)
    (st : arr i6 * arr force) : arr i6 * arr force :=
  let '(Ia, f) := st in
  let Ia := if abac then Ia else upd Ia i (i6_of (rb_inertia (rb_at ab i))) in
  let fi := i6mul (Ia i) (mact (iso_inv (Tw i)) (ab_g ab)) in
  let fi := match fe i with None => fi | Some x => fsub fi (fact (iso_inv (Tw i)) x) end in
  (Ia, upd f i fi).
(** opspace_dynamics_aba.cc:160-214 *)
Definition oa_gravity (ab : body) (link : nat) (offset : v3) (fe : fmap) (eps : K) (c : cache) : cache * list K :=
  let n := ab_dof ab in
  let c := ensure_Tp ab (ensure_Tw ab c) in
  let Tp := c_Tp (ca_T c) in let Tw := c_Tw (ca_T c) in
  let D := ca_aba c in
  let '(Ia, f) := for_up n (og_fwd_step ab Tw (is_aba D) fe) (c_Ia D, c_f (ca_rnea c)) in
  let '(Ia, h, d, f, ddq) := for_down n (occ_back_step ab Tp (is_aba D) false (c_a (ca_rnea c)))
                                      (Ia, c_h D, c_d D, f, fun _ => 0) in
  let c := with_aba (with_rnea c (RD (c_a (ca_rnea c)) f))
                    (AD true Ia h d (is_Ainv D) (c_Ainv D) (c_P D) (c_AA D)) in
  let acc := occ_last ab Tp false (c_a (ca_rnea c)) h d ddq (anc_at ab link) in
  let p := mact (Iso (rot (Tw link)) v3zero) acc in
  let c := oa_inertia ab link offset eps c in
  (c, lmulv 6 6 (oa_Lambda (ca_oa c)) (m6 p)).
(** opspace_dynamics_aba.cc:160-215 as called from the API *)
Definition q_ops_GravityAba (link : Z) (offset : v3) (fe : fmap) (eps : K) (ab : body) : res (body * list K) :=
  on_cache ab (fun c => match idx (ab_dof ab) link with
    | None => UB | Some l => Ok (oa_gravity ab l offset fe eps c) end).

End OpspaceAba.
