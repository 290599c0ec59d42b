(** C55: assigning to attributes of links *)
From Coq Require Import List Arith ZArith Bool String QArith Qcanon.
From Verif Require Import Scalar Base Spatial Joint Body Ops PyEdit SpecAttr Instances Samples PropPy AttrProofs.
Import ListNotations.
Local Open Scope nat_scope.

(** C55.  An assignment is refused, and the robot stays as it is, or it takes effect: the
    attributes assigned have their new values, all others of that link, the other links,
    and the rest of the robot are as before. *)
Theorem C55_assign : forall {S : Scal} i k e (ab : body), idx (List.length (ab_rbs ab)) i = Some k ->
  if refused e (link k ab) then edit_link i e ab = Exn ab
  else exists ab', edit_link i e ab = Ret ab' tt /\
    (forall a v, In (a, v) (assigned e) -> attr a (link k ab') = v) /\
    (forall a, (forall v, ~ In (a, v) (assigned e)) -> attr a (link k ab') = attr a (link k ab)) /\
    (forall l, l <> k -> link l ab' = link l ab) /\ List.length (ab_rbs ab') = List.length (ab_rbs ab) /\ ab' = set_rbs (ab_rbs ab') ab.
Proof. exact @c55_assign. Qed.
Print Assumptions C55_assign.
Definition assignable (ab : @body QcScal) : bool :=
  match idx (List.length (ab_rbs ab)) (-1) with Some 3 => true | _ => false end && negb (refused (EType "py") (link 3 ab)) &&
  match jtyp (rb_joint (link 3 ab)) with JPy => false | _ => true end && refused (ELimits (Fin (qz 2)) (Fin (qz 1))) (link 3 ab).
Example C55_assign_example : exists ab : @body QcScal, preached solve0 pinv0 (py build) ab /\ idx (List.length (ab_rbs ab)) (-1) = Some 3 /\
  refused (EType "py") (link 3 ab) = false /\ attr AtType (link 3 ab) <> VType JPy /\ refused (ELimits (Fin (qz 2)) (Fin (qz 1))) (link 3 ab) = true.
Proof.
  exists (robot_py (py build)). split; [apply robot_py_reached; vm_compute; reflexivity|].
  assert (X : assignable (robot_py (py build)) = true) by (vm_compute; reflexivity). revert X. generalize (robot_py (py build)). intros ab. unfold assignable, attr.
  destruct (idx _ _) as [[|[|[|[|n]]]]|]; try discriminate. destruct (refused (EType "py") (link 3 ab)); [discriminate|]. intros X. split; [reflexivity|]. split; [reflexivity|].
  destruct (jtyp _); try discriminate X; split; try discriminate; exact X.
Qed.
