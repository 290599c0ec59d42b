(** Specifications: small definitions used only to state properties. *)
From Coq Require Import List Arith ZArith Bool String Ascii Reals.
From Verif Require Import Scalar Base Spatial Joint Body Kin InvDyn Ops Instances.
Import ListNotations.

(** ** Trees (C01, C02) *)

(** [is_path parent l i]: [l] is the chain of links from the base to [i]
    inclusive, given everyone's parent. *)
Inductive is_path (parent : nat -> option nat) : list nat -> nat -> Prop :=
| path_root i : parent i = None -> is_path parent [i] i
| path_step i p l : parent i = Some p -> is_path parent l p -> is_path parent (l ++ [i]) i.

Section SpecTree.
Context {S : Scal}.

(** The links a history should have produced: those requested with an existing
    parent (or -1), in order. *)
Definition acceptable (links : list (rigid_body * Z)) (p : Z) : bool :=
  ((-1 <=? p) && (p <? Z.of_nat (List.length links)))%Z.
Definition accept (links : list (rigid_body * Z)) (o : op) : list (rigid_body * Z) :=
  match o with
  | OAdd rb p => if acceptable links p then links ++ [(rb, p)] else links
  | _ => links
  end.
Definition accepted (h : list op) : list (rigid_body * Z) := fold_left accept h [].
Definition requested_parent (links : list (rigid_body * Z)) (i : nat) : option nat :=
  match nth_error links i with
  | Some (_, p) => if (p <? 0)%Z then None else Some (Z.to_nat p)
  | None => None
  end.

(** Everything a user can read off a robot without a query. *)
Definition same_observables (a b : body) : Prop :=
  ab_name a = ab_name b /\ ab_graphics a = ab_graphics b /\ ab_dof a = ab_dof b /\
  ab_rbs a = ab_rbs b /\ ab_q a = ab_q b /\ ab_dq a = ab_dq b /\ ab_g a = ab_g b /\
  (forall k, ab_loads a k = ab_loads b k) /\ ab_Tbase a = ab_Tbase b /\ ab_Ibase a = ab_Ibase b /\
  ab_anc a = ab_anc b /\ ab_sub a = ab_sub b.
(** Everything but positions, velocities and the (invisible) cache is equal. *)
Definition frame (a b : body) : Prop :=
  ab_dof a = ab_dof b /\ ab_rbs a = ab_rbs b /\ ab_anc a = ab_anc b /\ ab_sub a = ab_sub b /\
  ab_g a = ab_g b /\ ab_loads a = ab_loads b /\ ab_Tbase a = ab_Tbase b /\
  ab_Ibase a = ab_Ibase b /\ ab_name a = ab_name b /\ ab_graphics a = ab_graphics b.
End SpecTree.

(** ** Joints (C25, C27) *)
Section SpecJoint.
Context {S : Scal}.
Inductive joint_op :=
| JSetType (t : jtype) | JSetQMin (x : bound) | JSetQMax (x : bound) | JSetQLim (x y : bound)
| JSetDqMax (x : bound) | JSetFqMax (x : bound)
| JSetCoulomb (x : K) | JSetViscous (x : K) | JSetStiction (x : K).
Definition joint_call (o : joint_op) (j : joint) : mres joint unit :=
  match o with
  | JSetType t => Ret (set_type t j) tt
  | JSetQMin x => set_q_min x j | JSetQMax x => set_q_max x j | JSetQLim x y => set_q_limits x y j
  | JSetDqMax x => set_dq_max x j | JSetFqMax x => set_fq_max x j
  | JSetCoulomb x => set_f_coulomb x j | JSetViscous x => set_f_viscous x j
  | JSetStiction x => set_f_stiction x j
  end.
Definition joint_run (ops : list joint_op) (j : joint) : option joint :=
  fold_left (fun s o => match s with Some j => settled (joint_call o j) | None => None end) ops (Some j).
End SpecJoint.

(** Order of limits over the reals with infinities. *)
Definition bound_le (a b : @bound RScal) : Prop :=
  match a, b with
  | NInf, _ => True
  | _, PInf => True
  | Fin x, Fin y => (x <= y)%R
  | _, _ => False
  end.

(** C++ [a <= b] on limits. *)
Definition ble_spec {S : Scal} (a b : bound) : bool :=
  match a, b with
  | NInf, Fin y => keq y y
  | Fin x, PInf => keq x x
  | NInf, _ => true
  | _, PInf => true
  | Fin x, Fin y => klt x y || keq x y
  | _, _ => false
  end.

(** Equality up to ASCII letter case, character by character. *)
Definition letter (c : ascii) (k : nat) : Prop := nat_of_ascii c = 65 + k \/ nat_of_ascii c = 97 + k.
Definition same_char (a b : ascii) : Prop := a = b \/ exists k, k < 26 /\ letter a k /\ letter b k.
Inductive same_ci : string -> string -> Prop :=
| ci_nil : same_ci EmptyString EmptyString
| ci_cons a b s t : same_char a b -> same_ci s t -> same_ci (String a s) (String b t).
