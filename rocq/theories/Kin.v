(** Transforms (articulated_body.cc:178-222) and src/algorithms/forward_kinematics.cc.

    C++ queries are [const] but update the cache; here a query maps the robot to a
    new robot and a result.  The lazily computed transforms are requested inside
    loops in the C++; since computing them is idempotent and touches nothing else, the
    model computes them once before the loop, exactly when the loop would
    request them at least once. *)
From Coq Require Import List Arith ZArith Bool.
From Verif Require Import Scalar Base Spatial Joint Body.
Import ListNotations.

Section Kin.
Context {S : Scal}.
Local Open Scope k_scope.

(** articulated_body.cc:190-194, T_to_parent(i, q), index in range. *)
Definition T_par_q (ab : body) (i : nat) (q : K) : iso :=
  iso_mul (rb_T (rb_at ab i)) (T_joint (rb_joint (rb_at ab i)) q).

(** articulated_body.cc:181-187 *)
Definition ensure_Tp (ab : body) (c : cache) : cache :=
  let d := ca_T c in
  if is_Tp d then c
  else with_T c (TD true
         (for_up (ab_dof ab) (fun j a => upd a j (T_par_q ab j (qk (ab_q ab) j))) (c_Tp d))
         (is_Tw d) (c_Tw d)).

(** articulated_body.cc:203-207, loop body *)
Definition Tw_step (ab : body) (Tp : arr iso) (j : nat) (a : arr iso) : arr iso :=
  match par ab j with
  | None => upd a j (iso_mul (ab_Tbase ab) (Tp j))
  | Some p => upd a j (iso_mul (a p) (Tp j))
  end.
(** articulated_body.cc:199-210 *)
Definition ensure_Tw (ab : body) (c : cache) : cache :=
  if is_Tw (ca_T c) then c
  else let c := ensure_Tp ab c in
       let d := ca_T c in
       with_T c (TD (is_Tp d) (c_Tp d) true (for_up (ab_dof ab) (Tw_step ab (c_Tp d)) (c_Tw d))).

(** Run a computation on the cache; a null cache is dereferenced
    (e.g. forward_kinematics.cc:57-83). *)
Definition on_cache {A} (ab : body) (f : cache -> res (cache * A)) : res (body * A) :=
  match ab_cache ab with
  | None => UB
  | Some c => bind (f c) (fun '(c', x) => Ok (set_cache ab (Some c'), x))
  end.

(** articulated_body.cc:178-189 *)
Definition q_T_to_parent (i : Z) (ab : body) : res (body * iso) :=
  on_cache ab (fun c =>
    match idx (ab_dof ab) i with
    | None => UB
    | Some i => let c := ensure_Tp ab c in Ok (c, c_Tp (ca_T c) i)
    end).
(** articulated_body.cc:196-212 *)
Definition q_T_to_world (i : Z) (ab : body) : res (body * iso) :=
  on_cache ab (fun c =>
    match idx (ab_dof ab) i with
    | None => UB
    | Some i => let c := ensure_Tw ab c in Ok (c, c_Tw (ca_T c) i)
    end).
(** articulated_body.cc:190-194 *)
Definition T_to_parent_q (ab : body) (i : Z) (q : K) : res iso :=
  match idx (List.length (ab_rbs ab)) i with None => UB | Some i => Ok (T_par_q ab i q) end.

(** All indices of [l] are valid subscripts of the vector [q]
    (e.g. forward_kinematics.cc:22-30). *)
Definition in_range (q : list K) (l : list nat) : bool :=
  forallb (fun i => Nat.ltb i (List.length q)) l.

(** articulated_body.cc:213-222.  [T] is declared without initialiser
    ([Eigen::Isometry3d T;]): reading it before it is assigned is undefined. *)
Definition T_to_world_q (ab : body) (i : Z) (q : list K) : res iso :=
  match idx (List.length (ab_rbs ab)) i with
  | None => UB
  | Some i =>
    if in_range q (up_chain ab i) then
      match fold_left (fun T j => match T with
                                  | None => None
                                  | Some T => Some (iso_mul (T_par_q ab j (qk q j)) T)
                                  end) (up_chain ab i) None with
      | None => UB
      | Some T => Ok (iso_mul (ab_Tbase ab) T)
      end
    else UB
  end.

(** forward_kinematics.cc:16-20 *)
Definition q_Position (link : Z) (offset : v3) (ab : body) : res (body * v3) :=
  bind (q_T_to_world link ab) (fun '(ab, T) => Ok (ab, iso_app T offset)).
(** forward_kinematics.cc:22-30 *)
Definition Position_q (ab : body) (q : list K) (link : Z) (offset : v3) : res v3 :=
  match idx (List.length (ab_rbs ab)) link with
  | None => UB
  | Some l =>
    if in_range q (up_chain ab l) then
      Ok (iso_app (ab_Tbase ab)
            (fold_left (fun pos i => iso_app (T_par_q ab i (qk q i)) pos) (up_chain ab l) offset))
    else UB
  end.
(** forward_kinematics.cc:32-35; the rotation matrix handed to the quaternion
    constructor (the conversion itself is Eigen's). *)
Definition q_Orientation (link : Z) (ab : body) : res (body * m3) :=
  bind (q_T_to_world link ab) (fun '(ab, T) => Ok (ab, rot T)).
(** forward_kinematics.cc:37-45 *)
Definition Orientation_q (ab : body) (q : list K) (link : Z) : res m3 :=
  match idx (List.length (ab_rbs ab)) link with
  | None => UB
  | Some l =>
    if in_range q (up_chain ab l) then
      Ok (m3mul (rot (ab_Tbase ab))
            (fold_left (fun ori i => m3mul (rot (T_par_q ab i (qk q i))) ori) (up_chain ab l) m3id))
    else UB
  end.
(** forward_kinematics.cc:47-50: T * Translation(offset). *)
Definition q_CartesianPose (link : Z) (offset : v3) (ab : body) : res (body * iso) :=
  bind (q_T_to_world link ab) (fun '(ab, T) => Ok (ab, Iso (rot T) (iso_app T offset))).
(** forward_kinematics.cc:52-55 *)
Definition CartesianPose_q (ab : body) (q : list K) (link : Z) (offset : v3) : res iso :=
  bind (T_to_world_q ab link q) (fun T => Ok (Iso (rot T) (iso_app T offset))).

(** forward_kinematics.cc:71-74: column of the Jacobian for the operational point
    [p0n], given joint [i]'s world transform. *)
Definition jac_col (ab : body) (T : iso) (p0n : v3) (i : nat) : motion :=
  mact (Iso (rot T) (v3sub (tra T) p0n)) (sub_at ab i).
(** forward_kinematics.cc:68-75 *)
Definition jac_loop (ab : body) (Tw : arr iso) (link : nat) (offset : v3) : arr motion :=
  let p0n := iso_app (Tw link) offset in
  fold_left (fun J i => upd J i (jac_col ab (Tw i) p0n i)) (anc_at ab link) (fun _ => mzero).
(** forward_kinematics.cc:57-83, on the cache, link in range. *)
Definition ensure_jac (ab : body) (link : nat) (offset : v3) (c : cache) : cache :=
  let d := ca_jac c in
  if is_jac d && Nat.eqb (j_link d) link && v3eqb (j_offset d) offset then c
  else let c := ensure_Tw ab c in
       with_jac c (JD link offset true (jac_loop ab (c_Tw (ca_T c)) link offset)).
(** forward_kinematics.cc:57-83; the 6 x dof matrix by columns. *)
Definition q_Jacobian (link : Z) (offset : v3) (ab : body) : res (body * list motion) :=
  on_cache ab (fun c =>
    match idx (ab_dof ab) link with
    | None => UB
    | Some l => let c := ensure_jac ab l offset c in Ok (c, vec (ab_dof ab) (c_J (ca_jac c)))
    end).
(** forward_kinematics.cc:113-116 *)
Definition q_LinearJacobian (link : Z) (offset : v3) (ab : body) : res (body * list v3) :=
  bind (q_Jacobian link offset ab) (fun '(ab, J) => Ok (ab, map mlin J)).
(** forward_kinematics.cc:123-126: the offset is whatever the cache holds. *)
Definition q_AngularJacobian (link : Z) (ab : body) : res (body * list v3) :=
  match ab_cache ab with
  | None => UB
  | Some c => bind (q_Jacobian link (j_offset (ca_jac c)) ab) (fun '(ab, J) => Ok (ab, map mang J))
  end.

(** forward_kinematics.cc:88-98: transforms to world along the ancestors, starting
    from [T]. *)
Definition path_T (ab : body) (q : list K) : iso -> list nat -> list iso :=
  fix path_T T l :=
  match l with
  | nil => nil
  | i :: l => let T' := iso_mul T (T_par_q ab i (qk q i)) in T' :: path_T T' l
  end.
(** forward_kinematics.cc:85-111 *)
Definition Jacobian_q (ab : body) (q : list K) (link : Z) (offset : v3) : res (list motion) :=
  match idx (ab_dof ab) link with
  | None => UB
  | Some l =>
    let anc := anc_at ab l in
    if in_range q anc then
      let Ts := path_T ab q (ab_Tbase ab) anc in
      let p0n := iso_app (List.last Ts iso_id) offset in
      Ok (vec (ab_dof ab)
           (fold_left (fun J '(i, T) => upd J i (jac_col ab T p0n i)) (combine anc Ts) (fun _ => mzero)))
    else UB
  end.

(** forward_kinematics.cc:144-160, one (i,j) write: H(i,j) and H(j,i). *)
Definition hess_inner (J : arr motion) (ai : v3) (i : nat) (H : arr2 motion) (j : nat) : arr2 motion :=
  let h := Mot (v3cross ai (mlin (J j))) (v3cross ai (mang (J j))) in
  upd2 (upd2 H i j h) j i h.
(** forward_kinematics.cc:144-162: both loops over the ancestors *)
Definition hess_loop (ab : body) (Tw : arr iso) (J : arr motion) : list nat -> arr2 motion -> arr2 motion :=
  fix hess_loop l H :=
  match l with
  | nil => H
  | i :: l' =>
    let H' := if is_prismatic (rb_joint (rb_at ab i)) then H
              else fold_left (hess_inner J (m3mulv (rot (Tw i)) (mang (sub_at ab i))) i) l H in
    hess_loop l' H'
  end.
(** forward_kinematics.cc:133-163; H(i,j) as the 6-vector (linear, angular). *)
Definition q_Hessian (link : Z) (offset : v3) (ab : body) : res (body * list (list motion)) :=
  on_cache ab (fun c =>
    match idx (ab_dof ab) link with
    | None => UB
    | Some l =>
      let c := ensure_Tw ab (ensure_jac ab l offset c) in
      Ok (c, mat (ab_dof ab) (ab_dof ab)
               (hess_loop ab (c_Tw (ca_T c)) (c_J (ca_jac c)) (anc_at ab l) (fun _ _ => mzero)))
    end).

End Kin.
