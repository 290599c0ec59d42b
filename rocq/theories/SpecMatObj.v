(** Specifications: what a MATLAB program means by its robots (C70). *)
From Coq Require Import List Arith ZArith Bool String.
From Verif Require Import Scalar Base Spatial Joint Body Matlab MatObj.
Import ListNotations.

(** An allocator gives addresses that are not null and not in use. *)
Definition honest (alloc : nat -> list nat -> nat) : Prop :=
  forall n live, alloc n live <> 0 /\ ~ In (alloc n live) live.

Section Meant.
Context {S : Scal}.
(** What is meant: robots numbered in the order they were loaded; each variable names a
    robot; a deleted robot is gone for good.  Addresses play no part. *)
Record idea := Idea { i_vars : string -> option nat; i_robots : list (@body S); i_gone : list nat }.
Definition idea0 : idea := Idea (fun _ => None) [] [].
Definition alive (i : idea) (k : nat) : bool := negb (existsb (Nat.eqb k) (i_gone i)).
Definition is_var (v : string) (x : option nat) (f : string -> option nat) : string -> option nat := fun u => if String.eqb u v then x else f u.
(** robot [k] replaced *)
Fixpoint replace {A} (l : list A) (k : nat) (x : A) : list A :=
  match l, k with [], _ => [] | _ :: l, O => x :: l | y :: l, Datatypes.S k => y :: replace l k x end.
(** What a program shows; [None] if it uses or deletes a robot it has deleted. *)
Fixpoint meant (p : list (mop S)) (i : idea) : option (res (list (option (@marr S)))) :=
  match p with
  | [] => Some (Ok [])
  | MLoad v ab :: p => meant p (Idea (is_var v (Some (List.length (i_robots i))) (i_vars i)) (i_robots i ++ [ab]) (i_gone i))
  | MCopy v u :: p =>
    match i_vars i u with
    | Some k => meant p (Idea (is_var v (Some k) (i_vars i)) (i_robots i) (i_gone i))
    | None => Some Throw
    end
  | MClear v :: p => meant p (Idea (is_var v None (i_vars i)) (i_robots i) (i_gone i))
  | MDelete v :: p =>
    match i_vars i v with
    | Some k => if alive i k then meant p (Idea (i_vars i) (i_robots i) (k :: i_gone i)) else None
    | None => Some Throw
    end
  | MCall v f :: p =>
    match i_vars i v with
    | Some k =>
      if alive i k then
        match nth_error (i_robots i) k with
        | Some ab =>
          match f ab with
          | Ok (ab', out) =>
            match meant p (Idea (i_vars i) (replace (i_robots i) k ab') (i_gone i)) with
            | Some (Ok l) => Some (Ok (out :: l))
            | r => r
            end
          | Throw => Some Throw
          | UB => Some UB
          end
        | None => None
        end
      else None
    | None => Some Throw
    end
  end.
(** The outputs of a program. *)
Definition outputs {W A} (r : res (W * A)) : res A := match r with Ok (_, l) => Ok l | Throw => Throw | UB => UB end.
Definition loads (p : list (mop S)) : nat := List.length (filter (fun o => match o with MLoad _ _ => true | _ => false end) p).
Definition deletes (p : list (mop S)) : nat := List.length (filter (fun o => match o with MDelete _ => true | _ => false end) p).
End Meant.
Arguments idea _ : clear implicits.
