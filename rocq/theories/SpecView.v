(** Specification: programs holding the arrays [ab.q] and [ab.dq] (C67). *)
From Coq Require Import List Arith ZArith Bool.
From Verif Require Import Scalar Base Spatial Joint Body Sim Ops Control PyView.
Import ListNotations.

Section SpecView.
Context {S : Scal}.
(** [ab.dq] or [ab.q]. *)
Definition field (vel : bool) : @expr S := if vel then EDq else EQ.
Definition set_field (vel : bool) (e : expr) : @stmt S := if vel then PSetDq e else PSetQ e.
(** The expression [e] with the attribute written instead of the name [x]. *)
Fixpoint spell (vel : bool) (x : nat) (e : @expr S) : expr :=
  match e with
  | EName y => if Nat.eqb y x then field vel else EName y
  | ECopy e => ECopy (spell vel x e)
  | e => e
  end.
Definition spell_out (vel : bool) (x : nat) (c : @stmt S) : stmt :=
  match c with
  | PAssign y e => PAssign y (spell vel x e)
  | PSetQ e => PSetQ (spell vel x e)
  | PSetDq e => PSetDq (spell vel x e)
  | PShow e => PShow (spell vel x e)
  | PControl (Some e) k => PControl (Some (spell vel x e)) k
  | c => c
  end.
(** The statement gives the name [x] no new value ... *)
Definition leaves (x : nat) (c : @stmt S) : bool := match c with PAssign y _ => negb (Nat.eqb y x) | _ => true end.
(** ... and adds no link and does not make [ab] another robot. *)
Definition same_robot (c : @stmt S) : bool := match c with PCall (OAdd _ _) | PCall OCopy => false | _ => true end.
(** The statement only moves the robot, asks, or handles arrays. *)
Definition moving (c : @stmt S) : bool :=
  match c with PCall (OSetQ _) | PCall (OSetDq _) | PCall (OIntegrate _ _ _ _ _ _) | PCall (OAsk _) => true | PCall _ => false | _ => true end.
(** What a program shows. *)
Definition output {A : Type} (r : option (A * list (@shown S))) : option (list shown) := option_map snd r.
End SpecView.
