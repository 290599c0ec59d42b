(** C01, C02 *)
From Coq Require Import List Arith ZArith Bool String.
From Verif Require Import Scalar Base Spatial Joint Body Kin InvDyn Ops Instances Specs Samples TreeProofs.
Import ListNotations.

(** C01.  After any history [h] of API calls that did not run into undefined
    behaviour, the robot consists of the accepted AddRigidBody requests of [h], in
    order; negative indices count from the end. *)
Theorem C01_tree : forall {S : Scal} solve pinv h ab, reached solve pinv h ab ->
  let links := accepted h in
  let n := List.length links in
  ab_dof ab = n /\
  forall i rb p, nth_error links i = Some (rb, p) ->
    (-1 <= p < Z.of_nat i)%Z /\
    forall z, z = Z.of_nat i \/ z = (Z.of_nat i - Z.of_nat n)%Z ->
    api_rigid_body ab z = Ok (Rb (rb_name rb) (rb_graphics rb) (Z.of_nat i) p (rb_T rb) (rb_inertia rb) (rb_joint rb)) /\
    (exists anc, api_ancestors ab z = Ok anc /\ is_path (requested_parent links) anc i) /\
    (exists sub, api_subtree ab z = Ok sub /\ NoDup sub /\
       forall k, In k sub <-> k < n /\ exists l, is_path (requested_parent links) l k /\ In i l).
Proof. exact @c01. Qed.
Print Assumptions C01_tree.

(** A branching robot with one rejected link, posed and queried. *)
Example C01_example : exists ab, reached solve0 pinv0 (build ++ pose ++ [OAsk QInertia; OAsk (QJac (-1) (QV 1 2 3))]) ab.
Proof. apply reached_ex with (x := qz 7). vm_compute. reflexivity. Qed.
Example C01_example_links : List.map snd (accepted build) = [-1; 0; 0; 2]%Z.
Proof. vm_compute. reflexivity. Qed.

(** C02 *)
Theorem C02_add : forall {S : Scal} solve pinv ab rb p, reachable solve pinv ab ->
  match add_rigid_body rb p ab with
  | Bad => False
  | Exn ab' => (p < -1 \/ Z.of_nat (ab_dof ab) <= p)%Z /\ ab' = ab
  | Ret ab' id =>
    (-1 <= p < Z.of_nat (ab_dof ab))%Z /\ id = Z.of_nat (ab_dof ab) /\
    ab_dof ab' = Datatypes.S (ab_dof ab) /\
    ab_rbs ab' = ab_rbs ab ++ [Rb (rb_name rb) (rb_graphics rb) id p (rb_T rb) (rb_inertia rb) (rb_joint rb)] /\
    ab_q ab' = ab_q ab ++ [k0] /\ ab_dq ab' = ab_dq ab ++ [k0] /\
    ab_g ab' = ab_g ab /\ ab_loads ab' = ab_loads ab /\ ab_Tbase ab' = ab_Tbase ab /\
    ab_Ibase ab' = ab_Ibase ab /\ ab_name ab' = ab_name ab /\ ab_graphics ab' = ab_graphics ab
  end.
Proof. exact @c02_add. Qed.
Print Assumptions C02_add.

(** ([veqb] is the C++ ==: a vector equal to the stored one, up to the sign of
    zeros, is not stored.) *)
Theorem C02_set_q : forall {S : Scal} solve pinv ab q, reachable solve pinv ab ->
  match set_q q ab with
  | Bad => False
  | Exn ab' => List.length q <> ab_dof ab /\ ab' = ab
  | Ret ab' _ => List.length q = ab_dof ab /\ frame ab ab' /\ ab_dq ab' = ab_dq ab /\
                 (ab_q ab' = q \/ ab' = ab /\ veqb (ab_q ab) q = true)
  end.
Proof. exact @c02_q. Qed.
Print Assumptions C02_set_q.

Theorem C02_set_dq : forall {S : Scal} solve pinv ab q, reachable solve pinv ab ->
  match set_dq q ab with
  | Bad => False
  | Exn ab' => List.length q <> ab_dof ab /\ ab' = ab
  | Ret ab' _ => List.length q = ab_dof ab /\ frame ab ab' /\ ab_q ab' = ab_q ab /\
                 (ab_dq ab' = q \/ ab' = ab /\ veqb (ab_dq ab) q = true)
  end.
Proof. exact @c02_dq. Qed.
Print Assumptions C02_set_dq.

Example C02_example : exists ab, reachable solve0 pinv0 ab /\ ab_dof ab = 4 /\
  set_q [qz 1] ab = Exn ab /\ add_rigid_body (q_link "e" JRz iso_id 2) 4 ab = Exn ab.
Proof.
  destruct (C01_example) as [ab R]. exists ab. pose proof (C01_tree _ _ _ _ R) as [D _].
  assert (D4 : ab_dof ab = 4) by (rewrite D; vm_compute; reflexivity).
  pose proof (tree_reached _ _ _ _ R) as T.
  split; [eexists; exact R|]. split; [exact D4|]. split.
  - unfold set_q. rewrite D4. reflexivity.
  - unfold add_rigid_body. rewrite (tk_rbs _ T), D4. reflexivity.
Qed.
