(** C67: arrays of positions and velocities held by a Python program *)
From Coq Require Import List Arith ZArith Bool String QArith Qcanon.
From Verif Require Import Scalar Base Spatial Joint Body Kin Sim Ops Control Instances Specs SpecCache SpecKin SpecDyn PyView SpecView Samples Checks ViewProofs.
Import ListNotations.
Local Open Scope nat_scope.

(** C67.  After [x = ab.q] the name [x] is another spelling of [ab.q]: in whatever follows,
    as long as [x] is given no other value and no link is added, [x] can be replaced by
    [ab.q] everywhere, and the program does and shows the same.  Likewise for [ab.dq]. *)
Theorem C67_follow : forall {S : Scal} solve pinv h vel x p s,
  reached solve pinv h (v_ab s) -> forallb (leaves x) p = true -> forallb same_robot p = true ->
  runs solve pinv (PAssign x (field vel) :: p) s = runs solve pinv (PAssign x (field vel) :: map (spell_out vel x) p) s.
Proof. exact @c67_follow. Qed.
Print Assumptions C67_follow.

(** So [x = ab.q] does not save anything: assigning it back later changes nothing (numbers
    that differ from themselves aside) ... *)
Theorem C67_unrestored : forall {S : Scal} solve pinv h vel x p s s' l, (forall a : K, keq a a = true) ->
  reached solve pinv h (v_ab s) -> forallb (leaves x) p = true -> forallb same_robot p = true ->
  runs solve pinv (PAssign x (field vel) :: p) s = Some (s', l) ->
  runs solve pinv (PAssign x (field vel) :: p ++ [set_field vel (EName x)]) s = Some (s', l ++ [SNone]).
Proof. exact @c67_unrestored. Qed.
Print Assumptions C67_unrestored.

(** ... and as the goal of the controller it is the same as no goal. *)
Theorem C67_goal : forall {S : Scal} solve pinv h x p k s,
  reached solve pinv h (v_ab s) -> forallb (leaves x) p = true -> forallb same_robot p = true ->
  runs solve pinv (PAssign x EQ :: p ++ [PControl (Some (EName x)) k]) s = runs solve pinv (PAssign x EQ :: p ++ [PControl None k]) s.
Proof. exact @c67_goal. Qed.
Print Assumptions C67_goal.

(** After a link has been added, using [x] is undefined behaviour. *)
Theorem C67_dangling : forall {S : Scal} solve pinv h vel x p rb par p' s s1 l c,
  reached solve pinv h (v_ab s) -> 0 < ab_dof (v_ab s) ->
  forallb (leaves x) p = true -> forallb same_robot p = true -> forallb (leaves x) p' = true ->
  runs solve pinv (PAssign x (field vel) :: p) s = Some (s1, l) -> (exists b i, add_rigid_body rb par (v_ab s1) = Ret b i) ->
  In c [PShow (EName x); PSetQ (EName x); PSetDq (EName x); PShow (ECopy (EName x))] ->
  runs solve pinv (PAssign x (field vel) :: p ++ PCall (OAdd rb par) :: p' ++ [c]) s = None.
Proof. exact @c67_dangling. Qed.
Print Assumptions C67_dangling.

(** After [ab = ArticulatedBody(ab)] the name [x] keeps showing the old robot, which is as
    it was then, whatever is done to the new one. *)
Theorem C67_copied : forall {S : Scal} solve pinv h vel x p p' s s1 s2 l l',
  reached solve pinv h (v_ab s) ->
  forallb (leaves x) p = true -> forallb same_robot p = true -> forallb (leaves x) p' = true ->
  runs solve pinv (PAssign x (field vel) :: p) s = Some (s1, l) -> runs solve pinv (PCall OCopy :: p') s1 = Some (s2, l') ->
  runs solve pinv (PAssign x (field vel) :: p ++ PCall OCopy :: p' ++ [PShow (EName x)]) s =
  Some (s2, l ++ l' ++ [SArray (if vel then ab_dq (v_ab s1) else ab_q (v_ab s1))]).
Proof. exact @c67_copied. Qed.
Print Assumptions C67_copied.

(** Assigning an array of the wrong length to ab.q or ab.dq raises and changes nothing, and so
    does assigning an expression that raises. *)
Theorem C67_refused : forall {S : Scal} solve pinv vel e (s : pystate),
  (forall l, exec solve pinv (PShow e) s = Some (s, SArray l) -> List.length l <> ab_dof (v_ab s) -> exec solve pinv (set_field vel e) s = Some (s, SRaise)) /\
  (exec solve pinv (PShow e) s = Some (s, SRaise) -> exec solve pinv (set_field vel e) s = Some (s, SRaise)).
Proof. exact @c67_refused. Qed.
Print Assumptions C67_refused.

(** Copies do save: whatever a program does to move the robot (setting positions and
    velocities, integrating, the controller, questions), assigning back copies taken before
    succeeds and brings back positions and velocities; poses, Jacobians, gravity, Coriolis
    forces, inertia and external torques are as they were ... *)
Theorem C67_restore : forall {S : Scal} solve pinv {E : EqSound S} h x y p s s1 l,
  reached solve pinv h (v_ab s) -> base_fixed false h = true -> x <> y ->
  forallb (leaves x) p = true -> forallb (leaves y) p = true -> forallb moving p = true ->
  runs solve pinv (PAssign x (ECopy EQ) :: PAssign y (ECopy EDq) :: p) s = Some (s1, l) ->
  exists s', runs solve pinv (PAssign x (ECopy EQ) :: PAssign y (ECopy EDq) :: p ++ [PSetQ (EName x); PSetDq (EName y)]) s = Some (s', l ++ [SNone; SNone]) /\
  ab_q (v_ab s') = ab_q (v_ab s) /\ ab_dq (v_ab s') = ab_dq (v_ab s) /\
  forall (AC : AddComm S) q, pose_query q || jacobian_query q || dynamics_query q = true ->
  outcome (ask solve pinv q (v_ab s')) = outcome (ask solve pinv q (v_ab s)).
Proof. exact @c67_restore. Qed.
Print Assumptions C67_restore.

(** ... and so are forward and inverse dynamics. *)
Theorem C67_restore_dynamics : forall {S : Scal} solve pinv {E : EqSound S} {L : ScalLaws S} {PL : PosLaws S} h x y p s s1 l,
  reached solve pinv h (v_ab s) -> base_fixed false h = true -> proper (v_ab s) -> x <> y ->
  forallb (leaves x) p = true -> forallb (leaves y) p = true -> forallb moving p = true ->
  runs solve pinv (PAssign x (ECopy EQ) :: PAssign y (ECopy EDq) :: p) s = Some (s1, l) ->
  exists s', runs solve pinv (PAssign x (ECopy EQ) :: PAssign y (ECopy EDq) :: p ++ [PSetQ (EName x); PSetDq (EName y)]) s = Some (s', l ++ [SNone; SNone]) /\
  forall q, eom_query q = true -> outcome (ask solve pinv q (v_ab s')) = outcome (ask solve pinv q (v_ab s)).
Proof. exact @c67_restore_dyn. Qed.
Print Assumptions C67_restore_dynamics.

(** A robot of four links, moved and asked between saving and restoring: with [x = ab.q]
    the last position shown is the new one, with a copy it is the old one; with a link
    added in between there is no result. *)
Definition view_start : @pystate QcScal := PyState (robot_after (build ++ pose)) 0 (fun _ => None).
Definition elsewhere : list (@stmt QcScal) :=
  [PSetQ (ELit [qz 4; qz 3; qz 2; qz 1]); PAsk QGrav; PAssign 2 (ECopy EDq); PSetDq (EName 2); PCall (OAsk (QPos 3 (QV 1 2 3)))].
Definition arrays (r : option (@pystate QcScal * list (@shown QcScal))) : option (list (list (Z * Z))) :=
  option_map (fun '(_, l) => map (fun o => match o with SArray v => map frac v | _ => [] end) l) r.
Definition final (p : list (@stmt QcScal)) : option (list (Z * Z)) :=
  option_map (fun l => last l []) (arrays (runs solve0 pinv0 p view_start)).
Definition ran (p : list (@stmt QcScal)) : bool := match runs solve0 pinv0 p view_start with Some _ => true | None => false end.
Definition extra : @stmt QcScal := PCall (OAdd (q_link "extra" JPx q_iso 1) 0).
Example C67_example :
  reached solve0 pinv0 (build ++ pose) (v_ab view_start) /\ base_fixed false (build ++ pose) = true /\ proper (v_ab view_start) /\ ab_dof (v_ab view_start) = 4 /\
  (forall a : @K QcScal, keq a a = true) /\
  forallb (leaves 0) elsewhere = true /\ forallb (leaves 1) elsewhere = true /\ forallb same_robot elsewhere = true /\ forallb moving elsewhere = true /\
  ran (PAssign 0 EQ :: elsewhere) = true /\ ran (PAssign 0 (ECopy EQ) :: PAssign 1 (ECopy EDq) :: elsewhere) = true /\
  final [PShow EQ] = Some [(1, 2); (1, 1); (2, 1); (1, 3)]%Z /\
  final (PAssign 0 EQ :: elsewhere ++ [PSetQ (EName 0); PShow EQ]) = Some [(4, 1); (3, 1); (2, 1); (1, 1)]%Z /\
  final (PAssign 0 (ECopy EQ) :: PAssign 1 (ECopy EDq) :: elsewhere ++ [PSetQ (EName 0); PSetDq (EName 1); PShow EQ]) = final [PShow EQ] /\
  ran (PAssign 0 EQ :: elsewhere ++ [extra; PShow EQ]) = true /\
  ran (PAssign 0 EQ :: elsewhere ++ [extra; PShow (EName 0)]) = false /\
  final (PAssign 0 EQ :: PCall OCopy :: elsewhere ++ [PShow (EName 0)]) = final [PShow EQ].
Proof.
  split; [apply robot_after_reached; vm_compute; reflexivity|]. split; [reflexivity|]. split; [apply properb_ok; vm_compute; reflexivity|]. split; [vm_compute; reflexivity|].
  split. { intros a. change (@keq QcScal a a) with (Qc_eq_bool a a). unfold Qc_eq_bool. destruct (Qc_eq_dec a a); [reflexivity|congruence]. }
  repeat (split; [vm_compute; reflexivity|]). vm_compute; reflexivity.
Qed.
Definition refused (l : list (@K QcScal)) : bool :=
  match exec solve0 pinv0 (PSetQ (ELit l)) view_start with Some (_, SRaise) => true | _ => false end.
Example C67_refused_example : exec solve0 pinv0 (PShow (ELit [qz 1])) view_start = Some (view_start, SArray [qz 1]) /\
  refused [qz 1] = true /\ refused [qz 1; qz 2; qz 3; qz 4] = false.
Proof. split; [reflexivity|]. split; vm_compute; reflexivity. Qed.
