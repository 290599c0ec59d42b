(** Arrays of positions and velocities as a Python program holds them.

    [ab.q] and [ab.dq] (src/python/spatial_dyn.cc:160-167) return
    [const Eigen::VectorXd&] from the getter of a property.  pybind11 gives such getters
    the policy reference_internal, and its Eigen caster then makes no copy: the numpy array
    is a read-only window on the storage of the vector (articulated_body.h:438-439) and
    keeps the robot alive.  The setters and compute_opspace_control take
    [Eigen::Ref<const VectorXd>] (articulated_body.cc:92, 114; spatial_dyn.cc:49-58) and
    read an array of doubles where it lies.  AddRigidBody resizes both vectors
    (articulated_body.cc:255-259), after which earlier windows show freed storage.

    The policy and the caster are those of pybind11, an external library.
    Simplified: arrays made by the program itself are immutable values; a single name,
    [ab], stands for the robot; elements cannot be assigned through a window (numpy raises),
    so no statement for it is included. *)
From Coq Require Import List Arith ZArith Bool.
From Verif Require Import Scalar Base Spatial Joint Body Kin InvDyn FwdDyn Opspace OpspaceAba Deriv Sim Ops Control.
Import ListNotations.

Section PyView.
Context {S : Scal}.
Local Open Scope k_scope.
Variable solve : lmat -> list K -> list K.
Variable pinv : lmat -> K -> lmat * bool.

(** A numpy array: with its own data, or a window on q_ or dq_ opened when the storage was
    the [g]-th one and had [n] entries (spatial_dyn.cc:160-167). *)
Inductive pyarr :=
| Own (l : list K)
| Window (vel : bool) (g n : nat).

(** The robot, how often its storage has been replaced, and the names of the program
    (no particular lines). *)
Record pystate := PyState { v_ab : body; v_gen : nat; v_env : nat -> option pyarr }.

(** Reading an array; a window on replaced storage reads freed memory unless it is empty
    (articulated_body.cc:258-259). *)
Definition look (s : pystate) (a : pyarr) : res (list K) :=
  match a with
  | Own l => Ok l
  | Window vel g n =>
    if Nat.eqb n 0 then Ok nil
    else if Nat.eqb g (v_gen s) then Ok (if vel then ab_dq (v_ab s) else ab_q (v_ab s))
    else UB
  end.

(** Expressions: a name, ab.q, ab.dq, e.copy(), and an array written out
    (spatial_dyn.cc:160-167). *)
Inductive expr := EName (x : nat) | EQ | EDq | ECopy (e : expr) | ELit (l : list K).
(** Their value; an unbound name raises NameError (spatial_dyn.cc:160-167). *)
Fixpoint eval (s : pystate) (e : expr) : res pyarr :=
  match e with
  | EName x => match v_env s x with Some a => Ok a | None => Throw end
  | EQ => Ok (Window false (v_gen s) (List.length (ab_q (v_ab s))))
  | EDq => Ok (Window true (v_gen s) (List.length (ab_dq (v_ab s))))
  | ECopy e => bind (eval s e) (fun a => bind (look s a) (fun l => Ok (Own l)))
  | ELit l => Ok (Own l)
  end.
(** The numbers a C++ function sees when handed the value of an expression
    (spatial_dyn.cc:163, 167 and 49-58). *)
Definition numbers (s : pystate) (e : expr) : res (list K) := bind (eval s e) (look s).

(** Statements. [PCall] is a call of the robot's other methods or of a function of the
    library; [OCopy] is [ab = ArticulatedBody(ab)].  [PControl joint k] is
    [opspace_control(ab, joint=..., ...)] with the other arguments in [k]
    (opspace_control.py:108-133). *)
Inductive stmt :=
| PAssign (x : nat) (e : expr)
| PSetQ (e : expr) | PSetDq (e : expr)
| PShow (e : expr)
| PCall (o : op)
| PAsk (q : query)
| PControl (joint : option expr) (k : list K -> controller).
(** What a statement shows: nothing, an array, an answer, torques and status, or an
    exception the program catches. *)
Inductive shown := SNone | SArray (l : list K) | SAnswer (a : answer) | STorques (tau : list K) (st : Z) | SRaise.

(** The robot changed by a call; the storage is replaced when links are added
    (articulated_body.cc:255-259). *)
Definition robot_now (s : pystate) (ab : body) : pystate :=
  PyState ab (if Nat.eqb (ab_dof ab) (ab_dof (v_ab s)) then v_gen s else Datatypes.S (v_gen s)) (v_env s).
(** [ab = ArticulatedBody(ab)]: windows stay on the old robot, which nobody changes any
    more (spatial_dyn.cc:150, articulated_body.h:438-439). *)
Definition freeze (s : pystate) (a : pyarr) : pyarr :=
  match look s a with Ok l => Own l | _ => a end.
(** A setter (spatial_dyn.cc:160-167). *)
Definition assign_state (set : list K -> body -> mres body unit) (s : pystate) (e : expr) : option (pystate * shown) :=
  match numbers s e with
  | Ok l => match set l (v_ab s) with
            | Ret ab _ => Some (robot_now s ab, SNone)
            | Exn ab => Some (robot_now s ab, SRaise)
            | Bad => None
            end
  | Throw => Some (s, SRaise)
  | UB => None
  end.

(** One statement; [None] is undefined behaviour (spatial_dyn.cc:150-167,
    opspace_control.py:108-133). *)
Definition exec (c : stmt) (s : pystate) : option (pystate * shown) :=
  match c with
  | PAssign x e =>
    match eval s e with
    | Ok a => Some (PyState (v_ab s) (v_gen s) (fun y => if Nat.eqb y x then Some a else v_env s y), SNone)
    | Throw => Some (s, SRaise)
    | UB => None
    end
  | PSetQ e => assign_state set_q s e
  | PSetDq e => assign_state set_dq s e
  | PShow e => match numbers s e with Ok l => Some (s, SArray l) | Throw => Some (s, SRaise) | UB => None end
  | PCall OCopy =>
    match body_copy (v_ab s) with
    | Ok ab => Some (PyState ab (v_gen s) (fun y => option_map (freeze s) (v_env s y)), SNone)
    | _ => None
    end
  | PCall o => match step solve pinv o (v_ab s) with Some ab => Some (robot_now s ab, SNone) | None => None end
  | PAsk q =>
    match ask solve pinv q (v_ab s) with
    | Ok (ab, a) => Some (robot_now s ab, SAnswer a)
    | Throw => match step solve pinv (OAsk q) (v_ab s) with Some ab => Some (robot_now s ab, SRaise) | None => None end
    | UB => None
    end
  | PControl joint k =>
    (* _parse_opspace_control_joint: None means ab.q; q_des is read at spatial_dyn.cc:111-112 only,
       before the robot moves at line 132 *)
    match numbers s (match joint with Some e => e | None => EQ end) with
    | Ok qd => match compute_opspace_control solve pinv (k qd) (v_ab s) with
               | Ok (ab, (tau, st)) => Some (robot_now s ab, STorques tau st)
               | _ => None
               end
    | Throw => Some (s, SRaise)
    | UB => None
    end
  end.
(** A program, with everything it shows (no particular lines). *)
Fixpoint runs (p : list stmt) (s : pystate) : option (pystate * list shown) :=
  match p with
  | nil => Some (s, nil)
  | c :: p =>
    match exec c s with
    | Some (s', o) => match runs p s' with Some (s'', l) => Some (s'', o :: l) | None => None end
    | None => None
    end
  end.
End PyView.
Arguments pyarr {S}. Arguments pystate {S}. Arguments expr {S}. Arguments stmt {S}. Arguments shown {S}.
