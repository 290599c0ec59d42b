(** C70: the robots of MATLAB programs *)
From Coq Require Import List Arith ZArith Bool String QArith Qcanon Lia.
From Verif Require Import Scalar Base Spatial Joint Body Kin Ops Matlab MatObj Instances Specs SpecCache SpecMatObj Samples Checks
  MatObjProofs PropCache PropControl.
Import ListNotations.
Local Open Scope nat_scope.

(** A program that never uses or deletes a robot it has deleted shows what is meant, wherever
    the robots are allocated: copies of a variable are the same robot, robots loaded
    separately never affect each other. *)
Theorem C70_meant : forall {S : Scal} alloc (p : list (mop S)) r, honest alloc -> meant p idea0 = Some r -> outputs (mat_run alloc p world0) = r.
Proof. exact @c70_meant. Qed.
Print Assumptions C70_meant.
(** Every other program is undefined, with some allocator: the object keeps its pointer when
    the robot is deleted. *)
Theorem C70_misuse : forall {S : Scal} (p : list (mop S)), meant p idea0 = None -> exists alloc, honest alloc /\ mat_run alloc p world0 = UB.
Proof. exact @c70_misuse. Qed.
Print Assumptions C70_misuse.
(** Defect: robots are freed by delete only, not when the last variable is cleared or
    overwritten; whatever else a program does, it keeps in memory as many robots as it
    loaded less those it deleted. *)
Theorem C70_leak : forall {S : Scal} alloc (p : list (mop S)) w l, honest alloc -> mat_run alloc p world0 = Ok (w, l) -> List.length (w_mem w) + deletes p = loads p.
Proof. exact @c70_leak. Qed.
Print Assumptions C70_leak.
(** After v = u, a function called with v does to both what it would do called with u. *)
Theorem C70_copies : forall {S : Scal} alloc (w : world S) u v w1 l f, u <> v -> mat_step alloc (MCopy v u) w = Ok (w1, l) ->
  mat_step alloc (MCall v f) w1 = mat_step alloc (MCall u f) w1.
Proof. exact @c70_copies. Qed.
Print Assumptions C70_copies.

(** Two robots of three prismatic joints; gravity is asked of the first at another
    configuration, through a copy; then positions are asked. *)
Definition robot1 : @body QcScal := after pinv0 slides.
Definition robot2 : @body QcScal := after pinv0 (slides ++ [OSetQ (map qz [1; 2; 3]%Z)]).
Definition at_q (q : list Z) : @body QcScal -> @mex QcScal := mex_gravity [MNum (MA [3] (map qz q))].
Definition where_is : @body QcScal -> @mex QcScal := mex_position [].
Local Open Scope string_scope.
Definition shared_prog : list (mop QcScal) :=
  [MLoad "a" robot1; MLoad "c" robot2; MCopy "b" "a"; MCall "b" (at_q [5; 6; 7]%Z); MCall "a" where_is; MDelete "a"; MCall "c" where_is; MClear "c"].
Definition stale_prog : list (mop QcScal) := [MLoad "a" robot1; MCopy "b" "a"; MDelete "a"; MLoad "c" robot2; MCall "b" where_is].
Definition twice_prog : list (mop QcScal) := [MLoad "a" robot1; MDelete "a"; MDelete "a"].
Definition nums (r : res (list (option (@marr QcScal)))) : option (list (list (Z * Z))) :=
  match r with Ok l => Some (map (fun o => match o with Some a => map frac (m_data a) | None => [] end) l) | _ => None end.
Example C70_example : honest onward /\
  option_map nums (meant shared_prog idea0) = Some (Some [[(0, 1); (0, 1); (2943, 100)]; [(-5, 1); (7, 1); (10, 1)]; [(-1, 1); (3, 1); (6, 1)]])%Z /\
  nums (outputs (mat_run onward shared_prog world0)) <> None /\
  meant twice_prog idea0 = None /\ deletes shared_prog = 1 /\ loads shared_prog = 2.
Proof.
  split; [apply onward_honest|]. split; [vm_compute; reflexivity|]. split; [vm_compute; discriminate|]. repeat split; vm_compute; reflexivity.
Qed.
(** The undefined behaviour may pass unnoticed: with an allocator that uses freed memory
    again, a variable whose robot was deleted stands for the robot loaded next. *)
Theorem C70_stale_refuted : exists alloc (p : list (mop QcScal)), honest alloc /\ meant p idea0 = None /\
  nums (outputs (mat_run alloc p world0)) = nums (outputs (mat_run alloc [MLoad "c" robot2; MCall "c" where_is] world0)) /\
  nums (outputs (mat_run alloc p world0)) <> None.
Proof. exists reuse, stale_prog. split; [apply reuse_honest|]. split; [vm_compute; reflexivity|]. split; [vm_compute; reflexivity|vm_compute; discriminate]. Qed.
Print Assumptions C70_stale_refuted.
