(** C55, C57 *)
From Coq Require Import List Arith ZArith Bool String QArith Qcanon.
From Verif Require Import Scalar Base Spatial SpecGeo Joint Body Kin InvDyn FwdDyn Opspace OpspaceAba Deriv Sim Ops PyEdit Refs
  SpecCache SpecDyn SpecEdit SpecRefs Instances Samples PropCache EditProofs.
Import ListNotations.
Local Open Scope nat_scope.

(** A Python program over the sample robot. *)
Definition py (h : list (@op QcScal)) : list pop := map PCall h.
Definition robot_py (h : list (@pop QcScal)) : @body QcScal :=
  match prun solve0 pinv0 h (body_new "r" (junk (qz 7))) with Some ab => ab | None => body_new "none" (junk (qz 7)) end.
Lemma robot_py_reached h : is_some (prun solve0 pinv0 h (body_new "r" (junk (qz 7)))) = true -> preached solve0 pinv0 h (robot_py h).
Proof. intros H. exists "r"%string, (junk (qz 7)). unfold robot_py. destruct (prun _ _ _ _); [reflexivity|discriminate]. Qed.

(** C55.  If links are edited, and the base moved, only before the first query,
    every answer is that of a robot with the same description and no history. *)
Theorem C55_edits_first : forall {S : Scal} solve pinv {AC : AddComm S} h ab mem q,
  preached solve pinv h ab -> edits_first false h = true -> pose_query q || dynamics_query q = true ->
  outcome (ask solve pinv q ab) = outcome (ask solve pinv q (cold ab mem)).
Proof. exact @c55_first_pose. Qed.
Print Assumptions C55_edits_first.
Theorem C55_edits_first_jacobian : forall {S : Scal} solve pinv {AC : AddComm S} {E : EqSound S} h ab mem q,
  preached solve pinv h ab -> edits_first false h = true -> jacobian_query q = true ->
  outcome (ask solve pinv q ab) = outcome (ask solve pinv q (cold ab mem)).
Proof. exact @c55_first_jac. Qed.
Print Assumptions C55_edits_first_jacobian.
Definition edited_first : list (@pop QcScal) :=
  py build ++ [PEdit 1 (EMass (qz 9)); PEdit (-1) (EFrame q_iso); PEdit 0 (EType "px"); PEdit 7 (EMass (qz 1)); PEdit 0 (EInertia (q_inertia (-3)));
               PCall (OSetBase q_iso)] ++ py pose ++ py [OAsk QInertia; OAsk QGrav; OAsk (QTw 2)].
Example C55_edits_first_example : preached solve0 pinv0 edited_first (robot_py edited_first) /\ edits_first false edited_first = true /\
  fracs (outcome (ask solve0 pinv0 QInertia (robot_py edited_first))) <> fracs (outcome (ask solve0 pinv0 QInertia (robot_py (py (build ++ pose))))).
Proof. split; [apply robot_py_reached; vm_compute; reflexivity|]. split; [reflexivity|]. vm_compute. discriminate. Qed.

(** Whatever was done before, setting q to a different value puts everything right. *)
Theorem C55_set_q_repairs : forall {S : Scal} solve pinv {AC : AddComm S} h ab q ab1 h2 ab2 mem qy,
  preached solve pinv h ab -> set_q q ab = Ret ab1 tt -> veqb (ab_q ab) q = false ->
  prun solve pinv h2 ab1 = Some ab2 -> edits_first false h2 = true -> pose_query qy || dynamics_query qy = true ->
  outcome (ask solve pinv qy ab2) = outcome (ask solve pinv qy (cold ab2 mem)).
Proof. exact @c55_set_q_pose. Qed.
Print Assumptions C55_set_q_repairs.
Theorem C55_set_q_repairs_jacobian : forall {S : Scal} solve pinv {AC : AddComm S} {E : EqSound S} h ab q ab1 h2 ab2 mem qy,
  preached solve pinv h ab -> set_q q ab = Ret ab1 tt -> veqb (ab_q ab) q = false ->
  prun solve pinv h2 ab1 = Some ab2 -> edits_first false h2 = true -> jacobian_query qy = true ->
  outcome (ask solve pinv qy ab2) = outcome (ask solve pinv qy (cold ab2 mem)).
Proof. exact @c55_set_q_jac. Qed.
Print Assumptions C55_set_q_repairs_jacobian.

(** Nothing else does: an answer once given is given again after any edits, moves of
    the base, other queries, and settings of q and dq to their present values. *)
Theorem C55_stale : forall {S : Scal} solve pinv q ab ab1 x h ab2, remembered q = true ->
  ask solve pinv q ab = Ok (ab1, x) -> (forall o, In o h -> forgets_nothing (ab_q ab) (ab_dq ab) o = true) ->
  prun solve pinv h ab1 = Some ab2 -> outcome (ask solve pinv q ab2) = Ok x.
Proof. exact @c55_stale. Qed.
Print Assumptions C55_stale.
Example C55_stale_example : let ab := robot_py (py (build ++ pose)) in
  (forall o, In o [PEdit 0 (EFrame q_iso); PEdit 3 (EMass (qz 9)); PCall (OAsk QCC); PCall (OSetBase q_iso); PCall (OSetQ [qq 1 2; qz 1; qz 2; qq 1 3])] ->
     forgets_nothing (ab_q ab) (ab_dq ab) o = true) /\
  forallb (@remembered QcScal) [QTw 3; QInertia; QGrav] = true /\
  fracs (outcome (ask solve0 pinv0 QInertia ab)) <> [].
Proof.
  cbn zeta. split; [|split; [reflexivity|vm_compute; discriminate]]. intros o [<-|[<-|[<-|[<-|[<-|[]]]]]]; vm_compute; reflexivity.
Qed.

(** So answers can be those of no robot: after the edits below, each answer differs
    from that of a robot with the same description and no history. *)
Definition edited : list (@pop QcScal) :=
  py (build ++ pose ++ [OAsk (QTw 3); OAsk (QTp 1); OAsk QInertia; OAsk QGrav; OAsk QCC]) ++
  [PEdit 0 (EFrame q_iso); PEdit 1 (EFrame iso_id); PEdit 3 (EMass (qz 9)); PEdit 2 (EMass (qz 8));
   PCall (OSetQ [qq 1 2; qz 1; qz 2; qq 1 3]); PCall (OSetDq [qz 1; qz 2; qz (-1); qz 3])].
Theorem C55_refuted : exists (ab : @body QcScal) mem, preached solve0 pinv0 edited ab /\
  forall q, In q [QTw 3; QTp 1; QInertia; QGrav; QCC; QID [qz 1; qz 2; qz 3; qz 4] (fun _ => None) (IdOpts true true false (qz 1))] ->
    outcome (ask solve0 pinv0 q ab) <> outcome (ask solve0 pinv0 q (cold ab mem)).
Proof.
  exists (robot_py edited), (junk (qz 0)). split; [apply robot_py_reached; vm_compute; reflexivity|].
  intros q Hq. apply fracs_neq. destruct Hq as [<-|[<-|[<-|[<-|[<-|[<-|[]]]]]]]; vm_compute; discriminate.
Qed.
Print Assumptions C55_refuted.
(** Two programs ending in the same description, q and dq, one of which asked for the
    inertia matrix before the edit: InverseDynamics answers differently. *)
Definition edited_late (asked : list (@query QcScal)) : list (@pop QcScal) :=
  py (build ++ pose ++ map OAsk asked) ++ [PEdit 3 (EMass (qz 9))].
Theorem C55_inverse_dynamics_refuted : exists (a b : @body QcScal) q,
  preached solve0 pinv0 (edited_late [QInertia; QGrav; QCC]) a /\ preached solve0 pinv0 (edited_late [QGrav; QCC]) b /\
  map (fun rb => frac (imass (rb_inertia rb))) (ab_rbs a) = map (fun rb => frac (imass (rb_inertia rb))) (ab_rbs b) /\
  eom_query q = true /\ outcome (ask solve0 pinv0 q a) <> outcome (ask solve0 pinv0 q b).
Proof.
  exists (robot_py (edited_late [QInertia; QGrav; QCC])), (robot_py (edited_late [QGrav; QCC])),
    (QID [qz 1; qz 2; qz 3; qz 4] (fun _ => None) (IdOpts true true false (qz 1))).
  do 2 (split; [apply robot_py_reached; vm_compute; reflexivity|]). split; [vm_compute; reflexivity|]. split; [reflexivity|].
  apply fracs_neq. vm_compute. discriminate.
Qed.
Print Assumptions C55_inverse_dynamics_refuted.

(** Assigning to the mass of a link is not checked; assigning an inertia is. *)
Theorem C55_mass_unchecked : forall {S : Scal} i k m J (ab : body), idx (List.length (ab_rbs ab)) i = Some k ->
  (exists ab', edit_link i (EMass m) ab = Ret ab' tt /\ imass (rb_inertia (nth k (ab_rbs ab') rb_default)) = m) /\
  (klt (imass J) k0 = true -> exists ab', edit_link i (EInertia J) ab = Exn ab' /\ ab_rbs ab' = ab_rbs ab).
Proof. exact @c55_mass. Qed.
Print Assumptions C55_mass_unchecked.
Example C55_mass_example : idx (List.length (ab_rbs (robot_py (py build)))) (-1) = Some 3 /\ klt (imass (q_inertia (-3))) k0 = true.
Proof. split; vm_compute; reflexivity. Qed.
(** An inertia comes back from a pickle iff it is symmetric. *)
Theorem C55_pickled_inertia : forall {S : Scal} J, unpickle_inertia (pickle_inertia J) = J <-> isym J.
Proof. exact @c55_pickle. Qed.
Print Assumptions C55_pickled_inertia.

(** C57.  The reference a query returns shows its answer ... *)
Theorem C57_answer : forall {S : Scal} solve pinv ab q ab1 x r,
  ask solve pinv q ab = Ok (ab1, x) -> refers (ab_dof ab) q = Some r -> seen solve r ab1 = Ok x.
Proof. exact @c57_reference. Qed.
Print Assumptions C57_answer.
(** ... and goes on showing it over any queries other than those sharing its
    storage ... *)
Theorem C57_kept : forall {S : Scal} solve pinv ab q ab1 x r qs ab2,
  ask solve pinv q ab = Ok (ab1, x) -> refers (ab_dof ab) q = Some r ->
  (forall q', In q' qs -> may_overwrite q' r = false) -> run solve pinv (map OAsk qs) ab1 = Some ab2 ->
  seen solve r ab2 = Ok x.
Proof. exact @c57_kept. Qed.
Print Assumptions C57_kept.
Definition others : list (@query QcScal) :=
  [QJac 3 (QV 1 2 3); QTw 1; QGrav; QCC; QFD (map qz [1; 2; 3; 4]%Z) (fun _ => None) (IdOpts true true false (qz 1))].
Example C57_kept_example : (forall q', In q' others -> may_overwrite q' RInertia = false) /\
  match ask solve0 pinv0 QInertia (robot_after (build ++ pose)) with
  | Ok (ab1, x) => is_some (run solve0 pinv0 (map OAsk others) ab1) && negb (Nat.eqb (List.length (fracs (Ok x))) 0)
  | _ => false
  end = true.
Proof. split; [intros q' [<-|[<-|[<-|[<-|[<-|[]]]]]]; reflexivity|]. vm_compute. reflexivity. Qed.
(** ... and over any change of the robot: it then shows an outdated answer. *)
Theorem C57_outdated : forall {S : Scal} solve pinv r os ab ab',
  (forall o, In o os -> setter o = true) -> run solve pinv os ab = Some ab' -> seen solve r ab' = seen solve r ab.
Proof. exact @c57_setters. Qed.
Print Assumptions C57_outdated.

(** The queries excluded from [C57_kept] do overwrite: the Jacobian of link 3 held
    while that of link 1, or of another point, is asked; Lambda of one task held while
    that of another is asked. *)
Definition held (q other : @query QcScal) (ab : @body QcScal) : list (Z * Z) * list (Z * Z) :=
  match ask solve0 pinv0 q ab with
  | Ok (ab1, x) => match refers (ab_dof ab) q, ask solve0 pinv0 other ab1 with
                   | Some r, Ok (ab2, _) => (fracs (Ok x), fracs (seen solve0 r ab2))
                   | _, _ => ([], [])
                   end
  | _ => ([], [])
  end.
Theorem C57_overwritten_refuted : exists (ab : @body QcScal), reached solve0 pinv0 (build ++ pose) ab /\
  forall q other, In (q, other) [(QJac 3 (QV 0 0 0), QJac 1 (QV 0 0 0)); (QJac 3 (QV 0 0 0), QJac 3 (QV 1 0 0));
     (QoLambda [[qz 1; qz 0; qz 0; qz 0]] (qz 0), QoLambda [[qz 0; qz 1; qz 0; qz 0]] (qz 0))] ->
  exists ab1 x r ab2 y, ask solve0 pinv0 q ab = Ok (ab1, x) /\ refers (ab_dof ab) q = Some r /\
    ask solve0 pinv0 other ab1 = Ok (ab2, y) /\ seen solve0 r ab2 <> Ok x.
Proof.
  exists (robot_after (build ++ pose)). split; [apply robot_after_reached; vm_compute; reflexivity|].
  assert (X : forall q o, fst (held q o (robot_after (build ++ pose))) <> snd (held q o (robot_after (build ++ pose))) ->
    exists ab1 x r ab2 y, ask solve0 pinv0 q (robot_after (build ++ pose)) = Ok (ab1, x) /\ refers (ab_dof (robot_after (build ++ pose))) q = Some r /\
    ask solve0 pinv0 o ab1 = Ok (ab2, y) /\ seen solve0 r ab2 <> Ok x).
  { intros q o. unfold held. destruct (ask solve0 pinv0 q _) as [[ab1 x]| |]; try (intros H; exfalso; apply H; reflexivity).
    destruct (refers _ q) as [r|]; try (intros H; exfalso; apply H; reflexivity).
    destruct (ask solve0 pinv0 o ab1) as [[ab2 y]| |] eqn:E; try (intros H; exfalso; apply H; reflexivity).
    cbn [fst snd]. intros H. exists ab1, x, r, ab2, y. do 3 (split; [first [reflexivity|exact E]|]). intros F. apply H. rewrite F. reflexivity. }
  intros q o H. apply X. destruct H as [H|[H|[H|[]]]]; inversion H; vm_compute; discriminate.
Qed.
Print Assumptions C57_overwritten_refuted.
