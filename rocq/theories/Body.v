(** src/structs/articulated_body.{h,cc}, articulated_body_cache.h,
    rigid_body.{h,cc}, graphics.h: robot state, cache and setters. *)
From Coq Require Import List Arith ZArith Bool String.
From Verif Require Import Scalar Base Spatial Joint.
Import ListNotations.

Section Body.
Context {S : Scal}.
Local Open Scope k_scope.

(** graphics.h:47-54 *)
Inductive gtype := GUndef | GBox | GCapsule | GCylinder | GSphere | GMesh.
(** graphics.cc:27-39, operator<< *)
Definition gtype_to_string (t : gtype) : string :=
  match t with
  | GBox => "box" | GCapsule => "capsule" | GCylinder => "cylinder" | GSphere => "sphere"
  | GMesh => "mesh" | GUndef => "undefined"
  end%string.
(** graphics.cc:18-25 and 41-47, operator>> on one token; [.at] throws. *)
Definition gtype_of_string (s : string) : res gtype :=
  let l := lower s in
  (if String.eqb l "box" then Ok GBox else if String.eqb l "capsule" then Ok GCapsule
   else if String.eqb l "cylinder" then Ok GCylinder else if String.eqb l "sphere" then Ok GSphere
   else if String.eqb l "mesh" then Ok GMesh else if String.eqb l "undefined" then Ok GUndef
   else Throw)%string.
(** graphics.h:39-80 *)
Record geometry := Geo { gty : gtype; gscale : v3; gradius : K; glength : K; gmesh : string }.
(** graphics.h:82-87; rgba as (r,g,b) and a. *)
Record material := Mat { mname : string; mrgb : v3; malpha : K; mtexture : string }.
(** graphics.h:89-94 *)
Record graphics := Gfx { gname : string; gT : iso; ggeo : geometry; gmat : material }.

(** rigid_body.h:60-155 *)
Record rigid_body := Rb {
  rb_name : string;
  rb_graphics : list graphics;
  rb_id : Z;
  rb_parent : Z;
  rb_T : iso;
  rb_inertia : inertia;
  rb_joint : joint
}.

(** rigid_body.h:154, SpatialInertiad(1, 0, 0): 1 kg point mass. *)
Definition unit_mass : inertia := inertia_flat 1 v3zero 0 0 0 0 0 0.
(** rigid_body.h:151-155 *)
Definition rb_default : rigid_body :=
  Rb EmptyString nil (-1)%Z (-1)%Z iso_id unit_mass joint_default.

(** rigid_body.cc:24-29 *)
Definition rb_set_inertia (I : inertia) (rb : rigid_body) : mres rigid_body unit :=
  if klt (imass I) 0 then Exn rb
  else Ret (Rb (rb_name rb) (rb_graphics rb) (rb_id rb) (rb_parent rb) (rb_T rb) I (rb_joint rb)) tt.

(** articulated_body_cache.h:22-29 *)
Record t_data := TD { is_Tp : bool; c_Tp : arr iso; is_Tw : bool; c_Tw : arr iso }.
(** articulated_body_cache.h:31-35 *)
Record vel_data := VD { is_vel : bool; c_v : arr motion }.
(** articulated_body_cache.h:37-45; J by columns. *)
Record jac_data := JD { j_link : nat; j_offset : v3; is_jac : bool; c_J : arr motion }.
(** articulated_body_cache.h:47-53 *)
Record cc_data := CD { is_cc : bool; c_cc : arr motion; c_fc : arr force; c_C : arr K }.
(** articulated_body_cache.h:55-60 *)
Record grav_data := GD { is_grav : bool; c_fg : arr force; c_G : arr K }.
(** articulated_body_cache.h:62-66 *)
Record rnea_data := RD { c_a : arr motion; c_f : arr force }.
(** articulated_body_cache.h:68-76; the LDLT object is represented by the matrix
    it factorised. *)
Record crba_data := BD {
  is_crba : bool; c_Ic : arr inertia; c_A : arr2 K;
  is_crba_inv : bool; c_Afact : arr2 K }.
(** articulated_body_cache.h:78-90; P and A by (link, column). *)
Record aba_data := AD {
  is_aba : bool; c_Ia : arr i6; c_h : arr force; c_d : arr K;
  is_Ainv : bool; c_Ainv : arr2 K; c_P : arr2 force; c_AA : arr2 motion }.
(** articulated_body_cache.h:92-107; matrices as lists of rows. *)
Record opspace_data := OD {
  o_J : list (list K); o_eps : K;
  is_lambda : bool; o_Lambda : list (list K);
  is_lambda_inv : bool; o_Linv : list (list K); o_AinvJt : list (list K); o_singular : bool;
  is_jbar : bool; o_Jbar : list (list K) }.
(** articulated_body_cache.h:109-124; p by (link, column), u by (link, column). *)
Record opspace_aba_data := OAD {
  oa_link : nat; oa_offset : v3; oa_eps : K;
  is_oa_lambda : bool; oa_Lambda : list (list K);
  is_oa_linv : bool; oa_Linv : list (list K);
  oa_p : arr2 force; oa_u : arr2 K }.
(** articulated_body_cache.h:126-139 *)
Record drnea_data := DD {
  d_qprev : list K; d_dt : K; is_qprev : bool;
  d_Tprev : arr iso; d_pprev : arr force; is_prev : bool;
  d_Tnext : arr iso; d_p : arr force; d_dp : arr force }.

(** articulated_body_cache.h:20-141 *)
Record cache := Cache {
  ca_T : t_data; ca_vel : vel_data; ca_jac : jac_data; ca_cc : cc_data;
  ca_grav : grav_data; ca_rnea : rnea_data; ca_crba : crba_data; ca_aba : aba_data;
  ca_op : opspace_data; ca_oa : opspace_aba_data; ca_dr : drnea_data }.

(** assignment to one member of the cache, articulated_body_cache.h:20-141 *)
Definition with_T (c : cache) x := Cache x (ca_vel c) (ca_jac c) (ca_cc c) (ca_grav c) (ca_rnea c) (ca_crba c) (ca_aba c) (ca_op c) (ca_oa c) (ca_dr c).
(** assignment to one member of the cache, articulated_body_cache.h:20-141 *)
Definition with_vel (c : cache) x := Cache (ca_T c) x (ca_jac c) (ca_cc c) (ca_grav c) (ca_rnea c) (ca_crba c) (ca_aba c) (ca_op c) (ca_oa c) (ca_dr c).
(** assignment to one member of the cache, articulated_body_cache.h:20-141 *)
Definition with_jac (c : cache) x := Cache (ca_T c) (ca_vel c) x (ca_cc c) (ca_grav c) (ca_rnea c) (ca_crba c) (ca_aba c) (ca_op c) (ca_oa c) (ca_dr c).
(** assignment to one member of the cache, articulated_body_cache.h:20-141 *)
Definition with_cc (c : cache) x := Cache (ca_T c) (ca_vel c) (ca_jac c) x (ca_grav c) (ca_rnea c) (ca_crba c) (ca_aba c) (ca_op c) (ca_oa c) (ca_dr c).
(** assignment to one member of the cache, articulated_body_cache.h:20-141 *)
Definition with_grav (c : cache) x := Cache (ca_T c) (ca_vel c) (ca_jac c) (ca_cc c) x (ca_rnea c) (ca_crba c) (ca_aba c) (ca_op c) (ca_oa c) (ca_dr c).
(** assignment to one member of the cache, articulated_body_cache.h:20-141 *)
Definition with_rnea (c : cache) x := Cache (ca_T c) (ca_vel c) (ca_jac c) (ca_cc c) (ca_grav c) x (ca_crba c) (ca_aba c) (ca_op c) (ca_oa c) (ca_dr c).
(** assignment to one member of the cache, articulated_body_cache.h:20-141 *)
Definition with_crba (c : cache) x := Cache (ca_T c) (ca_vel c) (ca_jac c) (ca_cc c) (ca_grav c) (ca_rnea c) x (ca_aba c) (ca_op c) (ca_oa c) (ca_dr c).
(** assignment to one member of the cache, articulated_body_cache.h:20-141 *)
Definition with_aba (c : cache) x := Cache (ca_T c) (ca_vel c) (ca_jac c) (ca_cc c) (ca_grav c) (ca_rnea c) (ca_crba c) x (ca_op c) (ca_oa c) (ca_dr c).
(** assignment to one member of the cache, articulated_body_cache.h:20-141 *)
Definition with_op (c : cache) x := Cache (ca_T c) (ca_vel c) (ca_jac c) (ca_cc c) (ca_grav c) (ca_rnea c) (ca_crba c) (ca_aba c) x (ca_oa c) (ca_dr c).
(** assignment to one member of the cache, articulated_body_cache.h:20-141 *)
Definition with_oa (c : cache) x := Cache (ca_T c) (ca_vel c) (ca_jac c) (ca_cc c) (ca_grav c) (ca_rnea c) (ca_crba c) (ca_aba c) (ca_op c) x (ca_dr c).
(** assignment to one member of the cache, articulated_body_cache.h:20-141 *)
Definition with_dr (c : cache) x := Cache (ca_T c) (ca_vel c) (ca_jac c) (ca_cc c) (ca_grav c) (ca_rnea c) (ca_crba c) (ca_aba c) (ca_op c) (ca_oa c) x.

(** Flag resets (articulated_body.cc:102). *)
Definition clear_Tp (c : cache) := let d := ca_T c in with_T c (TD false (c_Tp d) (is_Tw d) (c_Tw d)).
(** articulated_body.cc:103 *)
Definition clear_Tw (c : cache) := let d := ca_T c in with_T c (TD (is_Tp d) (c_Tp d) false (c_Tw d)).
(** articulated_body.cc:104 *)
Definition clear_vel (c : cache) := with_vel c (VD false (c_v (ca_vel c))).
(** articulated_body.cc:105 *)
Definition clear_jac (c : cache) := let d := ca_jac c in with_jac c (JD (j_link d) (j_offset d) false (c_J d)).
(** articulated_body.cc:74 *)
Definition clear_cc (c : cache) := let d := ca_cc c in with_cc c (CD false (c_cc d) (c_fc d) (c_C d)).
(** articulated_body.cc:75 *)
Definition clear_grav (c : cache) := let d := ca_grav c in with_grav c (GD false (c_fg d) (c_G d)).
(** articulated_body.cc:76 *)
Definition clear_crba (c : cache) := let d := ca_crba c in with_crba c (BD false (c_Ic d) (c_A d) (is_crba_inv d) (c_Afact d)).
(** articulated_body.cc:77 *)
Definition clear_crba_inv (c : cache) := let d := ca_crba c in with_crba c (BD (is_crba d) (c_Ic d) (c_A d) false (c_Afact d)).
(** articulated_body.cc:78 *)
Definition clear_aba (c : cache) := let d := ca_aba c in with_aba c (AD false (c_Ia d) (c_h d) (c_d d) (is_Ainv d) (c_Ainv d) (c_P d) (c_AA d)).
(** articulated_body.cc:79 *)
Definition clear_Ainv (c : cache) := let d := ca_aba c in with_aba c (AD (is_aba d) (c_Ia d) (c_h d) (c_d d) false (c_Ainv d) (c_P d) (c_AA d)).
(** articulated_body.cc:80-82 *)
Definition clear_op (c : cache) := let d := ca_op c in with_op c (OD (o_J d) (o_eps d) false (o_Lambda d) false (o_Linv d) (o_AinvJt d) (o_singular d) false (o_Jbar d)).
(** articulated_body.cc:83-84 *)
Definition clear_oa (c : cache) := let d := ca_oa c in with_oa c (OAD (oa_link d) (oa_offset d) (oa_eps d) false (oa_Lambda d) false (oa_Linv d) (oa_p d) (oa_u d)).
(** articulated_body.cc:85 *)
Definition clear_prev (c : cache) := let d := ca_dr c in with_dr c (DD (d_qprev d) (d_dt d) (is_qprev d) (d_Tprev d) (d_pprev d) false (d_Tnext d) (d_p d) (d_dp d)).
(** articulated_body.cc:106 *)
Definition clear_qprev (c : cache) := let d := ca_dr c in with_dr c (DD (d_qprev d) (d_dt d) false (d_Tprev d) (d_pprev d) (is_prev d) (d_Tnext d) (d_p d) (d_dp d)).

(** articulated_body.cc:73-86 *)
Definition clear_dynamics (c : cache) : cache :=
  clear_prev (clear_oa (clear_op (clear_Ainv (clear_aba (clear_crba_inv (clear_crba (clear_grav (clear_cc c)))))))).

(** All flags off, arbitrary contents: [new Cache()] (articulated_body.cc:18-20,
    default initialisers of articulated_body_cache.h) with whatever happens to be
    in memory. *)
Definition all_clear (c : cache) : cache :=
  clear_dynamics (clear_qprev (clear_jac (clear_vel (clear_Tw (clear_Tp c))))).

(** articulated_body.h:428-450.  [ab_cache = None] is a null [cache_] pointer
    (moved-from object).  [ab_loads] is the map inertia_load_, keyed by size_t. *)
Record body := Body {
  ab_name : string;
  ab_graphics : list graphics;
  ab_cache : option cache;
  ab_dof : nat;
  ab_rbs : list rigid_body;
  ab_q : list K;
  ab_dq : list K;
  ab_g : motion;
  ab_loads : Z -> option inertia;
  ab_Tbase : iso;
  ab_Ibase : inertia;
  ab_anc : list (list nat);
  ab_sub : list (list nat)
}.

(** the algorithms write through the pointer cache_ of a const robot, articulated_body.h:428-450 *)
Definition set_cache (ab : body) (c : option cache) : body :=
  Body (ab_name ab) (ab_graphics ab) c (ab_dof ab) (ab_rbs ab) (ab_q ab) (ab_dq ab) (ab_g ab)
       (ab_loads ab) (ab_Tbase ab) (ab_Ibase ab) (ab_anc ab) (ab_sub ab).

(** articulated_body.cc:18-20 with the initialisers of articulated_body.h:435-445.
    [mem] is the uninitialised memory of the new cache. *)
Definition body_new (name : string) (mem : cache) : body :=
  Body name nil (Some (all_clear mem)) 0 nil nil nil
       (Mot (v3scale (klit (-981)%Z 100) (V3 0 0 1)) (v3scale (klit (-981)%Z 100) v3zero))
       (fun _ => None) iso_id unit_mass nil nil.

(** articulated_body.cc:22-34 and 52-66: copy constructor / assignment into a new
    object.  Dereferences the source's cache; inertia_base_ is not copied and keeps
    its default initialiser (articulated_body.h:445). *)
Definition body_copy (ab : body) : res body :=
  match ab_cache ab with
  | None => UB
  | Some c => Ok (Body (ab_name ab) (ab_graphics ab) (Some c) (ab_dof ab) (ab_rbs ab)
                       (ab_q ab) (ab_dq ab) (ab_g ab) (ab_loads ab) (ab_Tbase ab) unit_mass
                       (ab_anc ab) (ab_sub ab))
  end.
(** articulated_body.cc:52-66: assignment keeps the target's inertia_base_. *)
Definition body_assign (dst src : body) : res body :=
  match ab_cache src with
  | None => UB
  | Some c => Ok (Body (ab_name src) (ab_graphics src) (Some c) (ab_dof src) (ab_rbs src)
                       (ab_q src) (ab_dq src) (ab_g src) (ab_loads src) (ab_Tbase src)
                       (ab_Ibase dst) (ab_anc src) (ab_sub src))
  end.
(** articulated_body.cc:36-48: move constructor, (new object, moved-from object).
    Moved-from containers are left empty; dof_, g_, T_base_to_world_ are copied. *)
Definition body_move (ab : body) : body * body :=
  (Body (ab_name ab) (ab_graphics ab) (ab_cache ab) (ab_dof ab) (ab_rbs ab)
        (ab_q ab) (ab_dq ab) (ab_g ab) (ab_loads ab) (ab_Tbase ab) unit_mass
        (ab_anc ab) (ab_sub ab),
   Body EmptyString nil None (ab_dof ab) nil nil nil (ab_g ab) (fun _ => None)
        (ab_Tbase ab) (ab_Ibase ab) nil nil).

(** Eigen operator== on equal-sized vectors (articulated_body.cc:98, 120). *)
Fixpoint veqb (a b : list K) : bool :=
  match a, b with
  | nil, nil => true
  | x :: a, y :: b => keq x y && veqb a b
  | _, _ => false
  end.

(** articulated_body.cc:92-108.  (A moved-from object has an empty q_ but keeps
    dof_: comparing vectors of different sizes is an Eigen assertion.) *)
Definition set_q (q : list K) (ab : body) : mres body unit :=
  if negb (Nat.eqb (List.length q) (ab_dof ab)) then Exn ab
  else if negb (Nat.eqb (List.length (ab_q ab)) (List.length q)) then Bad
  else if veqb (ab_q ab) q then Ret ab tt
  else Ret (Body (ab_name ab) (ab_graphics ab)
       (match ab_cache ab with
        | None => None
        | Some c => Some (clear_dynamics (clear_qprev (clear_jac (clear_vel (clear_Tw (clear_Tp c))))))
        end)
       (ab_dof ab) (ab_rbs ab) q (ab_dq ab) (ab_g ab) (ab_loads ab) (ab_Tbase ab) (ab_Ibase ab)
       (ab_anc ab) (ab_sub ab)) tt.

(** articulated_body.cc:114-128 *)
Definition set_dq (dq : list K) (ab : body) : mres body unit :=
  if negb (Nat.eqb (List.length dq) (ab_dof ab)) then Exn ab
  else if negb (Nat.eqb (List.length (ab_dq ab)) (List.length dq)) then Bad
  else if veqb (ab_dq ab) dq then Ret ab tt
  else Ret (Body (ab_name ab) (ab_graphics ab)
       (match ab_cache ab with
        | None => None
        | Some c => Some (clear_qprev (clear_aba (clear_cc (clear_vel c))))
        end)
       (ab_dof ab) (ab_rbs ab) (ab_q ab) dq (ab_g ab) (ab_loads ab) (ab_Tbase ab) (ab_Ibase ab)
       (ab_anc ab) (ab_sub ab)) tt.

(** articulated_body.cc:130-135 *)
Definition set_g (g : v3) (ab : body) : mres body unit :=
  Ret (Body (ab_name ab) (ab_graphics ab)
       (match ab_cache ab with None => None | Some c => Some (clear_aba (clear_grav c)) end)
       (ab_dof ab) (ab_rbs ab) (ab_q ab) (ab_dq ab) (Mot g v3zero) (ab_loads ab) (ab_Tbase ab)
       (ab_Ibase ab) (ab_anc ab) (ab_sub ab)) tt.

(** the common part of articulated_body.cc:137-157: assign the map, then ClearDynamicsCache *)
Definition set_loads (ab : body) (l : Z -> option inertia) : mres body unit :=
  match ab_cache ab with
  | None => Bad        (* ClearDynamicsCache dereferences cache_ unconditionally *)
  | Some c => Ret (Body (ab_name ab) (ab_graphics ab) (Some (clear_dynamics c))
       (ab_dof ab) (ab_rbs ab) (ab_q ab) (ab_dq ab) (ab_g ab) l (ab_Tbase ab)
       (ab_Ibase ab) (ab_anc ab) (ab_sub ab)) tt
  end.
(** std::map operator[] assignment and erase, articulated_body.cc:137-157 *)
Definition map_set (m : Z -> option inertia) (k : Z) (x : option inertia) : Z -> option inertia :=
  fun j => if (j =? k)%Z then x else m j.

(** articulated_body.cc:137-145 *)
Definition add_load (I : inertia) (i : Z) (ab : body) : mres body unit :=
  let k := to_size (norm_idx (ab_dof ab) i) in
  set_loads ab (map_set (ab_loads ab) k
    (Some (match ab_loads ab k with None => I | Some J => iadd J I end))).
(** articulated_body.cc:147-151 *)
Definition replace_load (I : inertia) (i : Z) (ab : body) : mres body unit :=
  set_loads ab (map_set (ab_loads ab) (to_size (norm_idx (ab_dof ab) i)) (Some I)).
(** articulated_body.cc:153-157 *)
Definition clear_load (i : Z) (ab : body) : mres body unit :=
  set_loads ab (map_set (ab_loads ab) (to_size (norm_idx (ab_dof ab) i)) None).

(** articulated_body.cc:159-161, articulated_body.h:232-236: no invalidation. *)
Definition set_T_base (T : iso) (ab : body) : mres body unit :=
  Ret (Body (ab_name ab) (ab_graphics ab) (ab_cache ab)
       (ab_dof ab) (ab_rbs ab) (ab_q ab) (ab_dq ab) (ab_g ab) (ab_loads ab) T
       (ab_Ibase ab) (ab_anc ab) (ab_sub ab)) tt.

(** articulated_body.cc:171-176 *)
Definition set_inertia_base (I : inertia) (ab : body) : mres body unit :=
  if klt (imass I) 0 then Exn ab
  else let '(xx, yy, zz, xy, xz, yz) := I_com_flat I in
  Ret (Body (ab_name ab) (ab_graphics ab) (ab_cache ab)
       (ab_dof ab) (ab_rbs ab) (ab_q ab) (ab_dq ab) (ab_g ab) (ab_loads ab) (ab_Tbase ab)
       (inertia_flat (imass I) (icom I) xx yy zz xy xz yz) (ab_anc ab) (ab_sub ab)) tt.

(** [subtrees_[a].push_back(id)] for every [a] in [ancestors]
    (articulated_body.cc:270-272). *)
Definition push_subtrees (id : nat) (anc : list nat) (subs : list (list nat)) : list (list nat) :=
  fold_left (fun subs a => replace_nth a (nth a subs nil ++ [id]) subs) anc subs.

(** [conservativeResize] to [n] if shorter, then [v(id) = 0]
    (articulated_body.cc:257-263).  Simplified: exact when [v] has [id] entries, i.e.
    for every object that was not moved from. *)
Definition grow (v : list K) (id : nat) : list K := firstn id v ++ [0].

(** articulated_body.cc:254-344.  Entries appended to the cache vectors are
    uninitialised: they are whatever the contents functions hold there. *)
Definition expand_dof (id : nat) (id_parent : Z) (ab : body) : body :=
  let ancs := if (id_parent <? 0)%Z then nil else nth (Z.to_nat id_parent) (ab_anc ab) nil in
  Body (ab_name ab) (ab_graphics ab)
       (match ab_cache ab with None => None | Some c => Some (all_clear c) end)
       (Datatypes.S (ab_dof ab)) (ab_rbs ab) (grow (ab_q ab) id) (grow (ab_dq ab) id) (ab_g ab) (ab_loads ab)
       (ab_Tbase ab) (ab_Ibase ab)
       (ab_anc ab ++ [ancs ++ [id]])
       (push_subtrees id ancs (ab_sub ab) ++ [[id]]).

(** articulated_body.cc:241-252; returns the new id. *)
Definition add_rigid_body (rb : rigid_body) (id_parent : Z) (ab : body) : mres body Z :=
  let id := List.length (ab_rbs ab) in
  if ((Z.of_nat id <=? id_parent) || (id_parent <? -1))%Z then Exn ab
  else
    let rb' := Rb (rb_name rb) (rb_graphics rb) (Z.of_nat id) id_parent (rb_T rb) (rb_inertia rb) (rb_joint rb) in
    let ab' := Body (ab_name ab) (ab_graphics ab) (ab_cache ab) (ab_dof ab) (ab_rbs ab ++ [rb'])
                    (ab_q ab) (ab_dq ab) (ab_g ab) (ab_loads ab) (ab_Tbase ab) (ab_Ibase ab)
                    (ab_anc ab) (ab_sub ab) in
    Ret (expand_dof id id_parent ab') (Z.of_nat id).

(** Accessors used by the algorithms (indices known to be in range)
    (articulated_body.cc:68-71). *)
Definition rb_at (ab : body) (i : nat) : rigid_body := nth i (ab_rbs ab) rb_default.
(** e.g. inverse_dynamics.cc:44 *)
Definition sub_at (ab : body) (i : nat) : motion := jsub (rb_joint (rb_at ab i)).
(** e.g. inverse_dynamics.cc:48 *)
Definition par (ab : body) (i : nat) : option nat :=
  let p := rb_parent (rb_at ab i) in if (p <? 0)%Z then None else Some (Z.to_nat p).
(** Eigen vector subscript, e.g. articulated_body.cc:88-91 *)
Definition qk (v : list K) (i : nat) : K := nth i v 0.
(** articulated_body.cc:224-227 *)
Definition anc_at (ab : body) (i : nat) : list nat := nth i (ab_anc ab) nil.
(** articulated_body.cc:228-231 *)
Definition subt_at (ab : body) (i : nat) : list nat := nth i (ab_sub ab) nil.

(** [rigid_bodies(i).inertia() + inertia_load().at(i)] if there is a load
    (inverse_dynamics.cc:45-47 and the other algorithms alike). *)
Definition inertia_at (ab : body) (i : nat) : inertia :=
  match ab_loads ab (Z.of_nat i) with
  | None => rb_inertia (rb_at ab i)
  | Some L => iadd (rb_inertia (rb_at ab i)) L
  end.

(** Public accessors articulated_body.cc:68-71, 88-91, 110-113, 224-231. *)
Definition api_rigid_body (ab : body) (i : Z) : res rigid_body :=
  match idx (List.length (ab_rbs ab)) i with Some i => Ok (rb_at ab i) | None => UB end.
(** articulated_body.cc:224-227 *)
Definition api_ancestors (ab : body) (i : Z) : res (list nat) :=
  match idx (ab_dof ab) i with Some i => Ok (anc_at ab i) | None => UB end.
(** articulated_body.cc:228-231 *)
Definition api_subtree (ab : body) (i : Z) : res (list nat) :=
  match idx (ab_dof ab) i with Some i => Ok (subt_at ab i) | None => UB end.

(** The indices visited by [for (j = start; j >= 0; j = rigid_bodies(j).id_parent())]
    (also written [i != -1]); [fuel] bounds the walk, and suffices whenever parents
    precede children. *)
Definition chain (ab : body) : nat -> option nat -> list nat :=
  fix chain fuel j :=
  match fuel, j with
  | Datatypes.S f, Some j => j :: chain f (par ab j)
  | _, _ => nil
  end.
(** the walk from link i, e.g. articulated_body.cc:213-222 *)
Definition up_chain (ab : body) (i : nat) : list nat := chain ab (Datatypes.S i) (Some i).

End Body.
