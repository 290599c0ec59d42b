(** C05, C12, C13, C14, C15 (weights), C16, C17, C29 *)
From Coq Require Import List Arith ZArith Bool String QArith Qcanon Reals Lra Lia.
From Verif Require Import Scalar Base Spatial SpecGeo Joint Body Kin InvDyn FwdDyn Opspace OpspaceAba Deriv Sim Ops Instances Specs SpecCache SpecKin SpecDyn Samples TreeProofs CacheProofs CacheOps KinProofs Checks LoadProofs DynApi RealDyn PropCache.
Import ListNotations.
Local Open Scope k_scope.

(** The robot of the history [busy] (a branching tree with a load, a turned base and
    full caches) meets the hypotheses of this file. *)
Example busy_proper : proper (robot_after busy).
Proof. apply properb_ok. vm_compute. reflexivity. Qed.
Example busy_inertia : fracs (outcome (ask solve0 pinv0 QInertia (robot_after busy))) <> [] /\
  fracs (outcome (ask solve0 pinv0 QCC (robot_after busy))) <> map (fun _ => (0, 1)%Z) (seq 0 5).
Proof. split; vm_compute; discriminate. Qed.

(** C05.  InverseDynamics and ForwardDynamics answer as on a robot with the same
    observable state and a newly allocated cache. *)
Theorem C05_cache_independent : forall {S : Scal} {L : ScalLaws S} {PL : PosLaws S} solve pinv h ab mem q,
  reached solve pinv h ab -> base_fixed false h = true -> proper ab -> eom_query q = true ->
  outcome (ask solve pinv q ab) = outcome (ask solve pinv q (cold ab mem)).
Proof. exact @c05. Qed.
Print Assumptions C05_cache_independent.
Example C05_example : let q := QID (map qz [1; 2; 3; 4; 5]%Z) (fun _ => None) (IdOpts true true true (qz 1)) in
  fracs (outcome (ask solve0 pinv0 q (robot_after busy))) = fracs (outcome (ask solve0 pinv0 q (cold (robot_after busy) (junk (qz 3))))) /\
  fracs (outcome (ask solve0 pinv0 q (robot_after busy))) <> [].
Proof. split; [vm_compute; reflexivity|vm_compute; discriminate]. Qed.

(** C12.  The inertia matrix is that of the sum of the kinetic energies of all
    links and loads. *)
Theorem C12_inertia : forall {S : Scal} {L : ScalLaws S} {PL : PosLaws S} solve pinv h ab,
  reached solve pinv h ab -> base_fixed false h = true -> proper ab ->
  exists J O A, jacobians ab J /\ orientations ab O /\ outcome (ask solve pinv QInertia ab) = Ok (AMat A) /\
    square (ab_dof ab) A /\
    (forall i j, (i < ab_dof ab)%nat -> (j < ab_dof ab)%nat ->
       entry A i j = over_bodies ab (fun k B => kinetic (O k) B (col (J k (icom B)) i) (col (J k (icom B)) j)) /\
       entry A i j = entry A j i /\
       (forall pi pj, is_path (requested_parent (accepted h)) pi i -> is_path (requested_parent (accepted h)) pj j ->
          ~ In i pj -> ~ In j pi -> entry A i j = 0)) /\
    (forall x y, List.length x = ab_dof ab -> List.length y = ab_dof ab ->
       quad A x y = over_bodies ab (fun k B => kinetic (O k) B (velocity (J k (icom B)) x) (velocity (J k (icom B)) y))).
Proof. exact @c12. Qed.
Print Assumptions C12_inertia.

(** C13.  Over the reals: no negative masses and semidefinite rotational inertias
    give a semidefinite matrix; solid bodies on moving joints a definite, hence
    invertible, one. *)
Theorem C13_definite : forall solve pinv h (ab : @body RScal),
  reached solve pinv h ab -> base_fixed false h = true -> proper ab ->
  (forall k, (k < ab_dof ab)%nat -> Forall massive (bodies_on ab k)) ->
  exists J O A, jacobians ab J /\ orientations ab O /\ outcome (ask solve pinv QInertia ab) = Ok (AMat A) /\
    (forall x, List.length x = ab_dof ab -> (0 <= quad A x x)%R /\
       (quad A x x = 0%R -> forall k B, (k < ab_dof ab)%nat -> In B (bodies_on ab k) ->
          kinetic (O k) B (velocity (J k (icom B)) x) (velocity (J k (icom B)) x) = 0%R)) /\
    ((forall k, (k < ab_dof ab)%nat -> Forall solid (bodies_on ab k) /\ jsub (rb_joint (nth k (ab_rbs ab) rb_default)) <> mzero) ->
      (forall x, List.length x = ab_dof ab -> quad A x x = 0%R -> forall i, (i < ab_dof ab)%nat -> coef x i = 0%R) /\
      injective (ab_dof ab) A).
Proof. exact @c13. Qed.
Print Assumptions C13_definite.
Definition r_inertia : @inertia RScal := @Inr RScal 2%R (@V3 RScal 1 0 2)%R (@M3 RScal (@V3 RScal 3 1 0) (@V3 RScal 1 4 0) (@V3 RScal 0 0 5))%R.
Definition r_link : @rigid_body RScal := Rb "a" [] (-1) (-1) iso_id r_inertia (joint_of JRz).
Example r_solid : solid r_inertia.
Proof.
  split; [cbn; lra|]. intros [x y z] H. cbn.
  assert (P : (3 * x * x + 2 * x * y + 4 * y * y + 5 * z * z > 0)%R); [|nra].
  destruct (Req_dec x 0) as [->|Hx]; [destruct (Req_dec y 0) as [->|Hy]; [destruct (Req_dec z 0) as [->|Hz]|]|].
  - exfalso. apply H. reflexivity.
  - assert (0 < z * z)%R by (apply Rsqr_pos_lt in Hz; exact Hz). nra.
  - assert (0 < y * y)%R by (apply Rsqr_pos_lt in Hy; exact Hy). nra.
  - assert (0 < x * x)%R by (apply Rsqr_pos_lt in Hx; exact Hx). nra.
Qed.
Example C13_example : exists h (ab : @body RScal), reached solve0 pinv0 h ab /\ base_fixed false h = true /\ proper ab /\
  ab_dof ab = 2%nat /\ (forall k, (k < ab_dof ab)%nat -> Forall massive (bodies_on ab k)) /\
  (forall k, (k < ab_dof ab)%nat -> Forall solid (bodies_on ab k) /\ jsub (rb_joint (nth k (ab_rbs ab) rb_default)) <> mzero).
Proof.
  eexists [OAdd r_link (-1); OAdd r_link 0], _. split; [exists "r"%string, (@junk RScal 0%R); reflexivity|]. split; [reflexivity|].
  assert (X : forall k, (k < 2)%nat -> k = 0%nat \/ k = 1%nat) by lia.
  assert (RI : rigid (@iso_id RScal)).
  { split; [|cbn; ring]. cbn. unfold m3mul, m3tr, m3mulv, m3id, v3dot. cbn. f_equal; f_equal; ring. }
  assert (SY : isym r_inertia) by reflexivity.
  assert (MS : klt (@k0 RScal) (total [imass r_inertia]) = true) by (cbn; apply Rltb_lt; lra).
  assert (JN : jsub (@joint_of RScal JRz) <> mzero) by (intros E; apply (f_equal (fun m => vz (mang m))) in E; cbn in E; lra).
  split; [|split; [reflexivity|]].
  - constructor; [split; [exact RI|repeat constructor; apply RI]| |]; intros k Hk; apply X in Hk; destruct Hk as [->| ->];
      try exact MS; repeat constructor.
  - assert (FM : Forall massive [r_inertia]) by (constructor; [apply solid_massive, r_solid|constructor]).
    assert (FS : Forall solid [r_inertia]) by (constructor; [apply r_solid|constructor]).
    split; intros k Hk; apply X in Hk; destruct Hk as [->| ->]; [exact FM|exact FM| |]; (split; [exact FS|exact JN]).
Qed.

(** C14 *)
Theorem C14_decomposition : forall {S : Scal} {L : ScalLaws S} {PL : PosLaws S} solve pinv h ab ddq fe o,
  reached solve pinv h ab -> base_fixed false h = true -> proper ab -> List.length ddq = ab_dof ab ->
  exists A C G E tau,
    outcome (ask solve pinv QInertia ab) = Ok (AMat A) /\
    outcome (ask solve pinv QCC ab) = Ok (AVec C) /\
    outcome (ask solve pinv QGrav ab) = Ok (AVec G) /\
    outcome (ask solve pinv (QExt fe) ab) = Ok (AVec E) /\
    let rigid_part := vec (ab_dof ab) (fun i =>
         over_links ab (fun j => entry A i j * coef ddq j) + (if o_cc o then coef C i else 0) +
         (if o_grav o then coef G i else 0) + coef E i) in
    outcome (ask solve pinv (QID ddq fe o) ab) = Ok (AVec tau) /\
    (o_fric o = false -> tau = rigid_part) /\
    (o_fric o = true -> exists F, Friction ab rigid_part true (o_stic o) = Ok F /\
                                  tau = vec (ab_dof ab) (fun i => coef rigid_part i + coef F i)).
Proof. exact @c14. Qed.
Print Assumptions C14_decomposition.

(** C15.  Gravity torques are the generalised forces of the weights of all links and
    loads, negated. *)
Theorem C15_weights : forall {S : Scal} {L : ScalLaws S} {PL : PosLaws S} solve pinv h ab,
  reached solve pinv h ab -> base_fixed false h = true -> proper ab ->
  exists J G, jacobians ab J /\ outcome (ask solve pinv QGrav ab) = Ok (AVec G) /\ List.length G = ab_dof ab /\
    forall i, (i < ab_dof ab)%nat ->
      coef G i = - over_bodies ab (fun k B => imass B * v3dot (mlin (ab_g ab)) (mlin (col (J k (icom B)) i))).
Proof. exact @c15. Qed.
Print Assumptions C15_weights.

(** C16.  External forces enter as minus their generalised force (power on the
    Jacobian columns of any point of the link). *)
Theorem C16_external : forall {S : Scal} {L : ScalLaws S} solve pinv h ab fe,
  reached solve pinv h ab -> base_fixed false h = true -> rigid_robot ab ->
  exists J X E, jacobians ab J /\ positions ab X /\ outcome (ask solve pinv (QExt fe) ab) = Ok (AVec E) /\ List.length E = ab_dof ab /\
    forall i (off : nat -> v3), (i < ab_dof ab)%nat ->
      coef E i = - over_links ab (fun k => match fe k with
                                           | Some f => power_at (X k (off k)) f (col (J k (off k)) i)
                                           | None => 0
                                           end).
Proof. exact @c16. Qed.
Print Assumptions C16_external.
Example C16_example : let fe := fun k => if Nat.eqb k 3 then Some (Frc (QV 1 2 3) (QV 4 5 6)) else None in
  fracs (outcome (ask solve0 pinv0 (QExt fe) (robot_after busy))) <> map (fun _ => (0, 1)%Z) (seq 0 5).
Proof. vm_compute. discriminate. Qed.

(** C17.  [solver_ok]: what the LDLT solver returns solves the system. *)
Theorem C17_inverse : forall {S : Scal} {L : ScalLaws S} {PL : PosLaws S} solve pinv h ab fe o,
  reached solve pinv h ab -> base_fixed false h = true -> proper ab -> o_fric o = false ->
  exists A, outcome (ask solve pinv QInertia ab) = Ok (AMat A) /\
    (solver_ok solve (ab_dof ab) A ->
     (forall tau, List.length tau = ab_dof ab -> exists ddq,
        outcome (ask solve pinv (QFD tau fe o) ab) = Ok (AVec ddq) /\
        outcome (ask solve pinv (QID ddq fe o) ab) = Ok (AVec tau)) /\
     (injective (ab_dof ab) A -> forall ddq, List.length ddq = ab_dof ab -> exists tau,
        outcome (ask solve pinv (QID ddq fe o) ab) = Ok (AVec tau) /\
        outcome (ask solve pinv (QFD tau fe o) ab) = Ok (AVec ddq))).
Proof. exact @c17. Qed.
Print Assumptions C17_inverse.
(** A solver meeting [solver_ok] on a concrete robot (elimination on a 2 x 2 system). *)
Definition two : list (@op QcScal) :=
  [OSetBase q_iso; OAdd (q_link "a" JRz iso_id 2) (-1); OAdd (q_link "b" JRx q_iso 1) 0; OSetQ [qz 1; qz 2]; OSetDq [qz 1; qz 3]; OAsk QCC].
Lemma frac_eq (x : @K QcScal) n d : frac x = (n, Zpos d) -> x = Q2Qc (n # d).
Proof. intros H. destruct x as [[a b] C]. unfold frac in H. cbn in H. inversion H; subst. apply Qc_is_canon. cbn [this Q2Qc]. rewrite C. reflexivity. Qed.
Lemma solver2 (a b c d : @K QcScal) : a <> k0 -> a * d - b * c <> k0 -> solver_ok solve0 2 [[a; b]; [c; d]] /\ injective 2 [[a; b]; [c; d]].
Proof.
  intros Ha Hd. change (@K QcScal) with Qc in *. cbn in Ha, Hd.
  split.
  - intros [|x [|y [|? ?]]] Hl; try discriminate Hl. split; [reflexivity|]. change (@K QcScal) with Qc in *.
    intros [|[|i]] Hi; [| |lia]; unfold row_times, entry, coef; cbn; field; (split; [auto|]); intros E; apply Hd; rewrite <- E; ring.
  - intros [|x [|y [|? ?]]] Hl H; try discriminate Hl. change (@K QcScal) with Qc in *.
    pose proof (H 0%nat ltac:(lia)) as H0. pose proof (H 1%nat ltac:(lia)) as H1. unfold row_times, entry, coef in *. cbn in *.
    assert (Y : (y * (a * d - b * c))%Qc = Q2Qc 0).
    { transitivity (a * (c * x + (d * y + Q2Qc 0)) - c * (a * x + (b * y + Q2Qc 0)))%Qc; [ring|]. rewrite H0, H1. ring. }
    assert (X : (x * (a * d - b * c))%Qc = Q2Qc 0).
    { transitivity (d * (a * x + (b * y + Q2Qc 0)) - b * (c * x + (d * y + Q2Qc 0)))%Qc; [ring|]. rewrite H0, H1. ring. }
    apply Qcmult_integral in X, Y. intros [|[|i]] Hi; [| |lia]; cbn; tauto.
Qed.
Example C17_example : exists A, reached solve0 pinv0 two (robot_after two) /\ base_fixed false two = true /\ proper (robot_after two) /\
  outcome (ask solve0 pinv0 QInertia (robot_after two)) = Ok (AMat A) /\ ab_dof (robot_after two) = 2%nat /\ solver_ok solve0 2 A /\ injective 2 A.
Proof.
  assert (R : reached solve0 pinv0 two (robot_after two)) by (apply robot_after_reached; vm_compute; reflexivity).
  assert (P : proper (robot_after two)) by (apply properb_ok; vm_compute; reflexivity).
  assert (D : ab_dof (robot_after two) = 2%nat) by (vm_compute; reflexivity).
  destruct (C12_inertia solve0 pinv0 two _ R eq_refl P) as (J & O & A & _ & _ & HA & [H1 H2] & _). rewrite D in H1, H2.
  exists A. do 5 (split; [auto|]).
  assert (F : fracs (outcome (ask solve0 pinv0 QInertia (robot_after two))) = [(654, 25); (22, 5); (22, 5); (7, 1)]%Z) by (vm_compute; reflexivity).
  rewrite HA in F. clear HA R P D J O.
  destruct A as [|ra [|rb [|? ?]]]; try discriminate H1.
  pose proof (Forall_inv H2) as Ha. pose proof (Forall_inv (Forall_inv_tail H2)) as Hb. cbn beta in Ha, Hb. destruct ra as [|a [|b' [|? ?]]]; try discriminate Ha. destruct rb as [|c [|d [|? ?]]]; try discriminate Hb.
  cbn [fracs List.concat app map] in F. injection F as E1 E1' E2 E2' E3 E3' E4 E4'.
  rewrite (frac_eq a 654 25), (frac_eq b' 22 5), (frac_eq c 22 5), (frac_eq d 7 1) by (unfold frac; congruence).
  apply solver2; intros X; apply (f_equal frac) in X; vm_compute in X; discriminate X.
Qed.

(** C29.  Queries answer as if each load had been added to the inertia of its link
    and the load table were empty; no assumption on the arithmetic. *)
Theorem C29_absorbed : forall {S : Scal} solve pinv h ab mem q, reached solve pinv h ab -> sees_load q = true ->
  outcome (ask solve pinv q (cold ab mem)) = outcome (ask solve pinv q (cold (absorb ab) mem)).
Proof. exact @c29_absorbed. Qed.
Print Assumptions C29_absorbed.
(** The same for a robot with full caches. *)
Theorem C29_absorbed_warm : forall {S : Scal} {L : ScalLaws S} {PL : PosLaws S} solve pinv {E : EqSound S} h ab mem q,
  reached solve pinv h ab -> base_fixed false h = true ->
  (pose_query q || jacobian_query q || dynamics_query q = true \/ proper ab /\ eom_query q = true) ->
  outcome (ask solve pinv q ab) = outcome (ask solve pinv q (cold (absorb ab) mem)).
Proof. exact @c29_warm. Qed.
Print Assumptions C29_absorbed_warm.

Example C29_example :
  match ab_loads (robot_after busy) 1%Z with Some J => frac (imass J) | None => (0, 0)%Z end = (2, 1)%Z /\
  fracs (outcome (ask solve0 pinv0 QGrav (robot_after busy))) <>
  fracs (outcome (ask solve0 pinv0 QGrav (cold (with_links (robot_after busy) (ab_rbs (robot_after busy)) (fun _ => None)) (junk (qz 0))))).
Proof. split; [vm_compute; reflexivity|vm_compute; discriminate]. Qed.
(** Entries of the table at indices that are not links have no effect. *)
Theorem C29_stray : forall {S : Scal} solve pinv ab mem q l,
  (forall k, (k < ab_dof ab)%nat -> l (Z.of_nat k) = ab_loads ab (Z.of_nat k)) -> sees_load q = true ->
  outcome (ask solve pinv q (cold (with_links ab (ab_rbs ab) l) mem)) = outcome (ask solve pinv q (cold ab mem)).
Proof. exact @c29_stray. Qed.
Print Assumptions C29_stray.
(** AddLoad accumulates, ReplaceLoad overwrites, ClearLoad removes, each on one link
    only. *)
Theorem C29_table : forall {S : Scal} solve pinv h ab z i J,
  reached solve pinv h ab -> (Z.of_nat (ab_dof ab) <= 2 ^ 64)%Z -> idx (ab_dof ab) z = Some i ->
  (exists ab', add_load J z ab = Ret ab' tt /\ same_but_loads ab ab' /\
    ab_loads ab' (Z.of_nat i) = Some (match ab_loads ab (Z.of_nat i) with None => J | Some J0 => iadd J0 J end) /\
    forall k, k <> Z.of_nat i -> ab_loads ab' k = ab_loads ab k) /\
  (exists ab', replace_load J z ab = Ret ab' tt /\ same_but_loads ab ab' /\
    ab_loads ab' (Z.of_nat i) = Some J /\ forall k, k <> Z.of_nat i -> ab_loads ab' k = ab_loads ab k) /\
  (exists ab', clear_load z ab = Ret ab' tt /\ same_but_loads ab ab' /\
    ab_loads ab' (Z.of_nat i) = None /\ forall k, k <> Z.of_nat i -> ab_loads ab' k = ab_loads ab k).
Proof. exact @c29_book. Qed.
Print Assumptions C29_table.
