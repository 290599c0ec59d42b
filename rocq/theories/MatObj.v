(** The robots of a MATLAB program: matlab/+spatialdyn/ArticulatedBody.m with
    src/matlab/load_model.cc and src/matlab/delete_articulated_body.cc. *)
From Coq Require Import List Arith ZArith Bool String.
From Verif Require Import Scalar Base Spatial Joint Body Matlab.
Import ListNotations.

Section MatObj.
Context {S : Scal}.

(** The variables of the workspace that hold a robot, by the property ptr_ab of the object
    (ArticulatedBody.m:1-11: a value class, so an assignment copies the property), and the
    robots allocated with new, by address (load_model.cc:28-30; no robot is at 0).
    [w_count] counts the calls of new. *)
Record world := World { w_vars : string -> option nat; w_mem : list (nat * @body S); w_count : nat }.
Definition world0 : world := World (fun _ => None) [] 0.
Definition set_var (v : string) (x : option nat) (f : string -> option nat) : string -> option nat :=
  fun u => if String.eqb u v then x else f u.
(** what an address points to (e.g. gravity.cc:27-29) *)
Definition find_at (a : nat) (m : list (nat * @body S)) : option (@body S) :=
  option_map snd (List.find (fun p => Nat.eqb (fst p) a) m).
(** the robot at an address changed through its pointer (e.g. gravity.cc:66) *)
Definition put_at (a : nat) (ab : @body S) (m : list (nat * @body S)) : list (nat * @body S) :=
  map (fun p => if Nat.eqb (fst p) a then (fst p, ab) else p) m.
(** [delete], delete_articulated_body.cc:27 *)
Definition free_at (a : nat) (m : list (nat * @body S)) : list (nat * @body S) :=
  filter (fun p => negb (Nat.eqb (fst p) a)) m.

(** The memory allocator behind new (load_model.cc:28): from the number of earlier calls
    and the addresses in use. *)
Variable alloc : nat -> list nat -> nat.

(** A statement of the program: v = spatialdyn.urdf.loadModel(...), whose answer is [ab] if
    no exception is thrown (load_model.cc:25, C34); v = u; clear v, which runs no method
    because the class is no handle class (ArticulatedBody.m:1); delete(v)
    (ArticulatedBody.m:13-22); one of the functions of a robot called with v (Matlab.v). *)
Inductive mop :=
| MLoad (v : string) (ab : @body S)
| MCopy (v u : string)
| MClear (v : string)
| MDelete (v : string)
| MCall (v : string) (f : @body S -> @mex S).
(** One statement: the outputs, if it is a call of a function.  A variable that is not there
    is an error; a pointer that is null is ignored (e.g. gravity.cc:30,
    delete_articulated_body.cc:27); a pointer to what is no robot any more is undefined. *)
Definition mat_step (o : mop) (w : world) : res (world * list (option (@marr S))) :=
  match o with
  | MLoad v ab =>
    let a := alloc (w_count w) (map fst (w_mem w)) in
    Ok (World (set_var v (Some a) (w_vars w)) ((a, ab) :: w_mem w) (Datatypes.S (w_count w)), [])
  | MCopy v u =>
    match w_vars w u with
    | Some a => Ok (World (set_var v (Some a) (w_vars w)) (w_mem w) (w_count w), [])
    | None => Throw
    end
  | MClear v => Ok (World (set_var v None (w_vars w)) (w_mem w) (w_count w), [])
  | MDelete v =>
    match w_vars w v with
    | Some a =>
      if Nat.eqb a 0 then Ok (w, [])
      else match find_at a (w_mem w) with
           | Some _ => Ok (World (w_vars w) (free_at a (w_mem w)) (w_count w), [])
           | None => UB
           end
    | None => Throw
    end
  | MCall v f =>
    match w_vars w v with
    | Some a =>
      if Nat.eqb a 0 then Ok (w, [None])
      else match find_at a (w_mem w) with
           | Some ab => bind (f ab) (fun '(ab, out) => Ok (World (w_vars w) (put_at a ab (w_mem w)) (w_count w), [out]))
           | None => UB
           end
    | None => Throw
    end
  end.
(** A program: the workspace at the end and the outputs in order. *)
Fixpoint mat_run (p : list mop) (w : world) : res (world * list (option (@marr S))) :=
  match p with
  | [] => Ok (w, [])
  | o :: p => bind (mat_step o w) (fun '(w, l) => bind (mat_run p w) (fun '(w, l') => Ok (w, l ++ l')))
  end.
End MatObj.
Arguments world _ : clear implicits.
Arguments mop _ : clear implicits.
