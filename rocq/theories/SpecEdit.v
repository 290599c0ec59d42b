(** Specification: Python programs that edit links in place (C55). *)
From Coq Require Import List Arith ZArith Bool.
From Verif Require Import Scalar Base Spatial Joint Body Ops PyEdit.
Import ListNotations.

Section SpecEdit.
Context {S : Scal}.

(** Links are edited, and the base moved, only while the robot has not been asked
    anything ([asked]: it has). *)
Fixpoint edits_first (asked : bool) (h : list pop) : bool :=
  match h with
  | nil => true
  | (PEdit _ _ | PCall (OSetBase _)) :: h => negb asked && edits_first asked h
  | PCall (OAsk _ | OIntegrate _ _ _ _ _ _) :: h => edits_first true h
  | PCall _ :: h => edits_first asked h
  end.

(** Queries whose answer is computed once: T_to_parent, T_to_world, Centrifugal-
    Coriolis, Gravity, Inertia, CompositeInertia, InertiaInverse (applied to a
    vector), InertiaInverseAba. *)
Definition remembered (q : query) : bool :=
  match q with
  | QTp _ | QTw _ | QCC | QGrav | QInertia | QComp _ | QAinv _ | QAinvAba => true
  | _ => false
  end.

(** Calls that make the robot forget nothing: edits, queries, moving the base, and
    setting q and dq to what they already are. *)
Definition forgets_nothing (q dq : list K) (o : pop) : bool :=
  match o with
  | PEdit _ _ | PCall (OAsk _) | PCall (OSetBase _) => true
  | PCall (OSetQ q') => veqb q q'
  | PCall (OSetDq dq') => veqb dq dq'
  | _ => false
  end.
End SpecEdit.
