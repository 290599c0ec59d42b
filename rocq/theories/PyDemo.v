(** The example application in Python, apps/opspace/opspace.py. *)
From Coq Require Import List Arith ZArith Bool.
From Verif Require Import Scalar Base Spatial Joint Body Kin InvDyn FwdDyn Opspace OpspaceAba Deriv Sim Ops Control.
Import ListNotations.

Section PyDemo.
Context {S : Scal}.
Local Open Scope k_scope.
Variable solve : lmat -> list K -> list K.
Variable pinv : lmat -> K -> lmat * bool.

(** apps/opspace/opspace.py:48-66.  [go i] is the value of g_runloop when it is tested for
    the i-th time (a signal sets it to False at any moment, 11-13).  [k] holds the goals, the
    offset and the gains; the thresholds (30-31) and the period of the timer (19, 60) are
    those of the program.  Sleeping and printing have no effect here.  The answer: the robot,
    what the calls returned, and whether the loop has ended; false when [fuel] iterations
    were not enough to end it. *)
Fixpoint demo_loop (go : nat -> bool) (k : controller) (fuel i : nat) (ab : body) : res (body * list (list K * Z) * bool) :=
  match fuel with
  | O => Ok (ab, [], false)
  | Datatypes.S fuel =>
    if go i then
      bind (py_opspace_control solve pinv (Some (klit 1 100, klit 1 100)) (Some (klit 1 100, klit 1 100)) (Some (klit 1 1000)) k ab) (fun '(ab, (tau, st)) =>
      if py_bool st then Ok (ab, [(tau, st)], true)
      else bind (demo_loop go k fuel (Datatypes.S i) ab) (fun '(ab, l, e) => Ok (ab, (tau, st) :: l, e)))
    else Ok (ab, [], true)
  end.

(** apps/opspace/opspace.py:34-66 without the loading of the model: [ab] is the robot just
    loaded, [home] Q_HOME (22-24), [off] EE_OFFSET (27).  ctrl_utils::PdControl (external) with
    the default gains is [pd_pos], [pd_ori] and [pd_joint], functions of the goal first. *)
Definition demo (pd_pos : v3 -> v3 -> list K -> list K * list K) (pd_ori : m3 -> m3 -> list K -> list K * list K)
  (pd_joint : list K -> list K -> list K -> list K) (home : list K) (off : v3) (go : nat -> bool) (fuel : nat) (ab : body)
  : res (body * list (list K * Z) * bool) :=
  bind (called (set_q home ab)) (fun ab =>
  bind (q_Position (-1) off ab) (fun '(ab, x) =>
  bind (q_Orientation (-1) ab) (fun '(ab, R) =>
  demo_loop go (Controller (pd_pos (v3add x (V3 0 (klit 2 10) 0))) (pd_ori R) (pd_joint home) off None 0 0 0 0 true 0) fuel 0 ab))).
End PyDemo.
