(** C69: the simulator in Python, apps/opspace/python/spatial_dyn_opspace.py *)
From Coq Require Import List Arith ZArith Bool String QArith Qcanon Lia.
From Verif Require Import Scalar Base Spatial Joint Body Kin Ops Discrete Json App PyFuns PyApp Instances Specs SpecCache SpecKin SpecDyn SpecHold SpecApp Samples Checks
  PyAppProofs PropControl PropHold AppSamples PropApp.
Import ListNotations.
Local Open Scope nat_scope.

(** Defect.  Whatever Redis answers and however long the program is left running, it sends
    the home position and zero torques and nothing else about the robot: the first
    iteration asks the module for a function it does not have. *)
Theorem C69_nothing : forall {S : Scal} {L : ScalLaws S} {ES : EqSound S} solve pinv near err h ab home ts,
  reached solve pinv h ab -> base_fixed false h = true -> 0 < ab_dof ab -> List.length home = ab_dof ab ->
  py_app solve pinv near err opspace_names home ts ab = Ok [SentQ home; SentTau (repeat k0 (ab_dof ab))].
Proof. exact @c69_nothing. Qed.
Print Assumptions C69_nothing.
(** The same for every module that lacks one of the two functions: adding just one of them
    does not help. *)
Theorem C69_either : forall {S : Scal} {L : ScalLaws S} {ES : EqSound S} solve pinv near err names h ab home ts,
  reached solve pinv h ab -> base_fixed false h = true -> 0 < ab_dof ab -> List.length home = ab_dof ab ->
  ~ In "near_quaternion"%string names \/ ~ In "orientation_error"%string names ->
  py_app solve pinv near err names home ts ab = Ok [SentQ home; SentTau (repeat k0 (ab_dof ab))].
Proof. exact @c69_any. Qed.
Print Assumptions C69_either.

(** Three prismatic joints, moving, dragged by the mouse, a key down.  With both functions the
    program does iterate and what it sends changes. *)
Definition near_q (Q goal : @m3 QcScal) : @m3 QcScal := Q.
Definition err_q (Q goal : @m3 QcScal) : list (@K QcScal) := [ksub (vy (r0 Q)) (vy (r0 goal)); ksub (vz (r1 Q)) (vz (r1 goal)); ksub (vx (r2 Q)) (vx (r2 goal))].
Definition crane_sends (names : list string) : list (bool * list (Z * Z) * list (Z * Z)) :=
  match py_app solve_i pinv_s near_q err_q names [qz 1; qz 2; qz 3] [tick_of held "d"; tick_of "" ""] crane with
  | Ok l => map (fun x => match x with SentQ q => (false, [], map frac q) | SentFrame f => (true, fr3 (f_goal f), map frac (f_q f)) | SentTau t => (false, map frac t, []) end) l
  | _ => []
  end.
Example C69_example : reached solve_i pinv_s gantry crane /\ base_fixed false gantry = true /\ 0 < ab_dof crane /\ List.length [qz 1; qz 2; qz 3] = ab_dof crane /\
  map snd (crane_sends ("near_quaternion" :: "orientation_error" :: opspace_names)%string) =
    [[(1, 1); (2, 1); (3, 1)]; [(457, 600); (5, 4); (131, 100)]; [(12973, 60000); (-167501, 1000000); (-16941, 10000)]; []]%Z /\
  ~ In "orientation_error"%string ("near_quaternion" :: opspace_names)%string.
Proof.
  split; [apply C63_crane|]. split; [reflexivity|]. split; [vm_compute; lia|]. split; [vm_compute; reflexivity|]. split; [vm_compute; reflexivity|].
  cbn. intros H. repeat (destruct H as [H|H]; [discriminate|]). exact H.
Qed.
