(** Proofs about loops around the Python task controller (C64). *)
From Coq Require Import List Arith ZArith Bool Lia Reals FunctionalExtensionality.
From Verif Require Import Scalar Base Spatial Joint Body Kin InvDyn FwdDyn Opspace OpspaceAba Deriv Sim Ops Control Instances Specs SpecCache SpecKin SpecDyn SpecOps SpecReal SpecControl SpecSim SpecLoop
  TreeProofs CacheProofs CacheOps KinProofs DynProofs DynApi OpsCache OpsApi TwinProofs ControlProofs RealMotion RealEnergy SimProofs.
Import ListNotations.
Local Open Scope nat_scope.

Section Pair.
Context {S : Scal} {L : ScalLaws S} {PL : PosLaws S} {ES : EqSound S}.
Variable solve : list (list K) -> list K -> list K.
Variable pinv : list (list K) -> K -> list (list K) * bool.
Local Open Scope k_scope.
#[local] Instance comm_of_laws : AddComm S := laws_comm.
Local Notation twin := (twin solve pinv proper).
Local Notation pair_of := (pair_of solve pinv proper).
Local Notation pair_b := (pair_b solve pinv proper).

Lemma pa a b q : twin a b -> safe q -> pair_of (ask solve pinv q a) (ask solve pinv q b).
Proof. apply pair_ask, proper_cache. Qed.
Lemma sf_oid J d N b : @safe S (QoID J d N no_force b ops_default). Proof. split; [intros x [H|[]]; auto|auto]. Qed.
Ltac inj := let u := fresh in let v := fresh in let H := fresh in intros u v H; congruence.
Lemma p_jac l o a b : twin a b -> pair_of (q_Jacobian l o a) (q_Jacobian l o b).
Proof. intros TW. refine (pair_wrap _ _ _ AMots _ _ _ (pa a b (QJac l o) TW _)); [inj|split; [intros x []|auto]]. Qed.
Lemma p_pos l o a b : twin a b -> pair_of (q_Position l o a) (q_Position l o b).
Proof. intros TW. refine (pair_wrap _ _ _ AV3 _ _ _ (pa a b (QPos l o) TW _)); [inj|split; [intros x []|auto]]. Qed.
Lemma p_ori l a b : twin a b -> pair_of (q_Orientation l a) (q_Orientation l b).
Proof. intros TW. refine (pair_wrap _ _ _ AM3 _ _ _ (pa a b (QOri l) TW _)); [inj|split; [intros x []|auto]]. Qed.
Lemma p_sing J e a b : twin a b -> pair_of (q_ops_IsSingular solve pinv J e a) (q_ops_IsSingular solve pinv J e b).
Proof. intros TW. refine (pair_wrap _ _ _ ABool _ _ _ (pa a b (QoSing J e) TW _)); [inj|split; [intros x []|auto]]. Qed.
Lemma p_grav a b : twin a b -> pair_of (q_Gravity a) (q_Gravity b).
Proof. intros TW. refine (pair_wrap _ _ _ AVec _ _ _ (pa a b QGrav TW _)); [inj|split; [intros x []|auto]]. Qed.
Lemma p_oid J d N g a b : twin a b -> pair_of (q_ops_InverseDynamics solve pinv J d N no_force g ops_default a) (q_ops_InverseDynamics solve pinv J d N no_force g ops_default b).
Proof.
  intros TW. refine (pair_wrap _ _ _ (fun '(N, t) => ANull N t) _ _ _ (pa a b (QoID J d N no_force g ops_default) TW (sf_oid _ _ _ _))).
  intros [? ?] [? ?] H; congruence.
Qed.
Lemma pair_pair {A B C} (x y : res (body * (A * B))) (f g : body -> A -> B -> res (body * C)) :
  pair_of x y -> (forall a b v w, twin a b -> pair_of (f a v w) (g b v w)) ->
  pair_of (bind x (fun '(a, (v, w)) => f a v w)) (bind y (fun '(a, (v, w)) => g a v w)).
Proof. destruct x as [[a [v w]]| |], y as [[b [v' w']]| |]; cbn; try tauto. intros [E T] H. inversion E. auto. Qed.
Lemma p_main J ddx dw a b : twin a b -> pair_of (main_task solve pinv J ddx dw a) (main_task solve pinv J ddx dw b).
Proof.
  intros TW. unfold main_task. destruct (twin_fields _ _ _ _ _ TW) as (_ & _ & -> & _).
  apply pair_bind; [apply p_sing; auto|]. intros a1 b1 s T1. destruct s.
  - apply pair_pair; [apply p_oid; auto|]. intros a2 b2 N t T2. apply pair_bind; [apply p_sing; auto|]. intros a3 b3 s3 T3. split; auto.
  - apply pair_pair; [apply p_oid; auto|]. intros a2 b2 N t T2. split; auto.
Qed.
Lemma p_control k a b : twin a b -> pair_of (compute_opspace_control solve pinv k a) (compute_opspace_control solve pinv k b).
Proof.
  intros TW. unfold compute_opspace_control. destruct (twin_fields _ _ _ _ _ TW) as (_ & _ & -> & _).
  apply pair_bind; [apply p_jac; auto|]. intros a1 b1 J T1. apply pair_bind; [apply p_pos; auto|]. intros a2 b2 x T2.
  destruct (twin_fields _ _ _ _ _ T2) as (_ & -> & _). destruct (c_pos k x _) as [ddx xe].
  apply pair_bind; [apply p_ori; auto|]. intros a3 b3 Q T3. destruct (twin_fields _ _ _ _ _ T3) as (_ & -> & _). destruct (c_ori k Q _) as [dw oe].
  match goal with |- pair_of (bind ?x _) (bind ?y _) => pose proof (p_main (task_jacobian (c_rot k) J) ddx dw a3 b3 T3) as X; destruct x as [[a4 [[[N tau] s6] s3]]| |], y as [[b4 [[[N' tau'] s6'] s3']]| |]; cbn [pair_of] in X; try tauto end.
  destruct X as [E T4]. inversion E; subst N' tau' s6' s3'. cbn [bind]. destruct (twin_fields _ _ _ _ _ T4) as (-> & -> & _).
  apply pair_pair; [apply p_oid; auto|]. intros a5 b5 N5 t T5. apply pair_bind.
  - destruct (c_gravity k); [|split; auto]. apply pair_bind; [apply p_grav; auto|]. intros a6 b6 G T6. split; auto.
  - intros a6 b6 t6 T6. destruct (klt 0 (c_dt k)); [|split; auto].
    match goal with |- pair_of (bind ?x _) (bind ?y _) => assert (X : pair_b x y) end.
    { apply pair_integrate; [apply proper_put|reflexivity| |auto]. intros u v TU. apply fd_pair; auto. }
    destruct (integrate _ _ _ a6) as [a7| |], (integrate _ _ _ b6) as [b7| |]; cbn in X |- *; tauto.
Qed.
Lemma drive_pair ks : forall p a b, (forall i a b, twin a b -> twin a (p i b)) -> twin a b ->
  drive solve pinv (fun _ x => x) ks a = drive solve pinv p ks b.
Proof.
  induction ks as [|k ks IH]; intros p a b Hp TW; [reflexivity|]. cbn [drive]. pose proof (p_control k a (p O b) (Hp O a b TW)) as X.
  destruct (compute_opspace_control solve pinv k a) as [[a' [t s]]| |], (compute_opspace_control solve pinv k (p O b)) as [[b' [t' s']]| |]; cbn in X; try tauto.
  destruct X as [E T']. inversion E. destruct (twin_fields _ _ _ _ _ T') as (-> & -> & _). rewrite (IH (fun i => p (Datatypes.S i)) a' b'); auto.
Qed.
Lemma c64_fresh h ab ks mem : reached solve pinv h ab -> base_fixed false h = true -> one_threshold k0 h -> proper ab ->
  drive solve pinv (fun _ x => x) ks ab = drive solve pinv (fun i x => cold x (mem i)) ks ab.
Proof.
  intros R B OT P. apply drive_pair.
  - intros i a b (Ga & Gb & c & E). split; [auto|]. split; [apply good_cold; [apply proper_cache|apply (gd_tree _ _ _ _ Gb)|apply (gd_also _ _ _ _ Gb)]|].
    exists c. subst a. reflexivity.
  - pose proof (good_reached solve pinv proper h ab R B OT P) as G. split; [auto|]. split; [auto|].
    destruct (tk_cache _ (gd_tree _ _ _ _ G)) as [c Hc]. exists c. destruct ab; cbn in *; subst; reflexivity.
Qed.
End Pair.

Section Real.
Local Open Scope R_scope.
Variable solve : list (list R) -> list R -> list R.
Variable pinv : list (list R) -> R -> list (list R) * bool.
Local Instance real_comm : AddComm RScal := @laws_comm RScal RLaws.

Lemma set_q_short (a : @body RScal) q : List.length q <> ab_dof a -> set_q q a = Exn a.
Proof. intros H. unfold set_q. apply Nat.eqb_neq in H. rewrite H. reflexivity. Qed.
Lemma set_dq_short (a : @body RScal) q : List.length q <> ab_dof a -> set_dq q a = Exn a.
Proof. intros H. unfold set_dq. apply Nat.eqb_neq in H. rewrite H. reflexivity. Qed.
Lemma set_q_dof (a : @body RScal) q a' u : set_q q a = Ret a' u -> ab_dof a' = ab_dof a.
Proof. destruct u. intros H. destruct (set_q_frame _ _ _ H) as [[F _] _]. congruence. Qed.
Lemma accel_same h ab h' b tau fe o c : reached (S:=RScal) solve pinv h ab -> base_fixed false h = true -> proper ab ->
  reached (S:=RScal) solve pinv h' b -> base_fixed false h' = true -> b = set_cache (at_ ab (ab_q b) (ab_dq b)) (Some c) ->
  forall pos vel, accel solve pinv b (sim_query false tau fe o) pos vel = accel solve pinv ab (sim_query false tau fe o) pos vel.
Proof.
  intros Ra Ba Pa Rb Bb E pos vel. assert (Pb : proper b) by (rewrite E; apply at_proper; auto).
  assert (D : ab_dof b = ab_dof ab) by (rewrite E; reflexivity).
  destruct (Nat.eq_dec (List.length pos) (ab_dof ab)) as [Lp|Lp].
  - destruct (Nat.eq_dec (List.length vel) (ab_dof ab)) as [Lv|Lv].
    + destruct (placed_exists solve pinv h ab pos vel Ra Lp Lv) as (a2 & a1 & E1 & E2).
      destruct (placed_exists solve pinv h' b pos vel Rb ltac:(congruence) ltac:(congruence)) as (b2 & b1 & F1 & F2).
      unfold accel. change (list (@K RScal)) with (list R) in *. rewrite E1, E2, F1, F2.
      assert (Ha : placed ab pos vel a2) by (exists a1; auto). assert (Hb : placed b pos vel b2) by (exists b1; auto).
      pose proof (placed_reached _ _ _ _ _ _ _ Ra Ha) as Ra2. pose proof (placed_reached _ _ _ _ _ _ _ Rb Hb) as Rb2.
      destruct (placed_at _ _ _ _ Ha) as (_ & _ & Ea). destruct (placed_at _ _ _ _ Hb) as (_ & _ & Eb).
      assert (B2 : forall h, base_fixed false h = true -> base_fixed false (h ++ [@OSetQ RScal pos; @OSetDq RScal vel]) = true) by (intros; apply calm_fixed; auto).
      pose proof (@c05 RScal RLaws RPos solve pinv _ a2 c (@QFD RScal tau fe o) Ra2 (B2 _ Ba)) as Xa.
      pose proof (@c05 RScal RLaws RPos solve pinv _ b2 c (@QFD RScal tau fe o) Rb2 (B2 _ Bb)) as Xb.
      unfold sim_query. rewrite Xa, Xb; auto.
      * replace (cold b2 c) with (cold a2 c); [reflexivity|]. rewrite Ea, Eb, E. reflexivity.
      * rewrite Eb. apply at_proper; auto.
      * rewrite Ea. apply at_proper; auto.
    + unfold accel. destruct (@set_q RScal pos b) as [b1 u| |] eqn:F1; destruct (@set_q RScal pos ab) as [a1 v| |] eqn:E1; try reflexivity;
      repeat match goal with
        | H : @set_q RScal pos ?x = Ret ?y _ |- _ => pose proof (set_q_dof x pos y _ H); clear H
        end;
      repeat match goal with |- context [@set_dq RScal vel ?x] => rewrite (set_dq_short x vel) by (intros Z; apply Lv; transitivity (ab_dof x); [exact Z|congruence]) end; reflexivity.
  - unfold accel. rewrite (set_q_short b pos) by (intros Z; apply Lp; transitivity (ab_dof b); [exact Z|exact D]). rewrite (set_q_short ab pos) by exact Lp. reflexivity.
Qed.
Definition moved (ab b : @body RScal) : Prop := exists c, b = set_cache (at_ ab (ab_q b) (ab_dq b)) (Some c).
Lemma moved_put ab io q dq a a' : moved ab a -> put io q dq a = Ok a' -> moved ab a'.
Proof.
  intros [c E] H. apply put_inv in H. destruct H as (q' & a1 & dq' & E1 & E2).
  destruct (placed_at a q' dq' a' (ex_intro _ a1 (conj E1 E2))) as (_ & _ & X).
  assert (N : exists c', ab_cache a' = Some c').
  { assert (N0 : ab_cache a = Some c) by (rewrite E; reflexivity). clear E X. revert E1 E2. unfold set_q, set_dq. destruct (negb _); [discriminate|]. destruct (negb _); [discriminate|]. destruct (veqb _ _); intros H; inversion H; subst a1; cbn [ab_dof ab_dq ab_cache];
    (destruct (negb _); [discriminate|]; destruct (negb _); [discriminate|]; destruct (veqb _ _); intros H2; inversion H2; subst a'; cbn [ab_cache]; rewrite ?N0; cbn; eauto). }
  destruct N as [c' N]. exists c'. rewrite N in X. assert (G : forall q dq m, set_cache (at_ a q dq) m = set_cache (at_ ab q dq) m) by (intros; rewrite E; reflexivity). rewrite X. cbn [ab_q ab_dq set_cache at_]. apply G.
Qed.
Lemma moved_int ab tau fe o io dt a a' : moved ab a -> integrate (sim_fd (S:=RScal) solve false tau fe o) io dt a = Ok a' -> moved ab a'.
Proof.
  intros M. apply (integrate_ind (moved ab)); auto.
  - intros b b' x [c E] H. apply (@sim_fd_frame RScal solve pinv) in H. destruct H as [c' ->]. exists c'. rewrite E. reflexivity.
  - intros b b' q dq Hb H. exact (moved_put ab io q dq b b' Hb H).
Qed.
Lemma base_fixed_int hh x1 x2 x3 x4 x5 x6 : forall b, base_fixed b (hh ++ [@OIntegrate RScal x1 x2 x3 x4 x5 x6]) = base_fixed b hh.
Proof. induction hh as [|o hh IH]; intros b; [reflexivity|]. destruct o; cbn; rewrite ?IH; auto. Qed.
Lemma klt00 : @klt RScal k0 k0 = false.
Proof. change (@klt RScal k0 k0) with (if Rlt_dec 0 0 then true else false). destruct (Rlt_dec 0 0); [exfalso; revert r; apply Rlt_irrefl|reflexivity]. Qed.
Definition still (k : @controller RScal) : @controller RScal :=
  @Controller RScal (c_pos k) (c_ori k) (c_joint k) (c_off k) (c_rot k) (c_x k) (c_dx k) (c_ori_t k) (c_w k) (c_gravity k) 0.
Lemma control_split k b : @compute_opspace_control RScal solve pinv k b =
  bind (@compute_opspace_control RScal solve pinv (still k) b) (fun '(b, (tau, st)) =>
  if @klt RScal k0 (c_dt k) then
    bind (@integrate RScal (sim_fd (S:=RScal) solve false tau no_force (IdOpts true true false (klit 1 100))) (IntOpts false MRk4) (c_dt k) b) (fun b => Ok (b, (tau, st)))
  else Ok (b, (tau, st))).
Proof.
  unfold compute_opspace_control, still. cbn [c_pos c_ori c_joint c_off c_rot c_x c_dx c_ori_t c_w c_gravity c_dt].
  destruct (q_Jacobian _ _ b) as [[b1 J]| |]; [|reflexivity..]. cbn [bind].
  destruct (q_Position _ _ b1) as [[b2 x]| |]; [|reflexivity..]. cbn [bind]. destruct (c_pos k _ _) as [ddx xe].
  destruct (q_Orientation _ b2) as [[b3 Q]| |]; [|reflexivity..]. cbn [bind]. destruct (c_ori k _ _) as [dw oe].
  destruct (main_task _ _ _ _ _ b3) as [[b4 [[[N tau] s6] s3]]| |]; [|reflexivity..]. cbn [bind].
  destruct (q_ops_InverseDynamics _ _ _ _ _ _ _ _ b4) as [[b5 [N5 t]]| |]; [|reflexivity..]. cbn [bind].
  match goal with |- bind ?x _ = _ => destruct x as [[b6 t6]| |] end; [|reflexivity..]. cbn [bind].
  change (@klt RScal k0 0) with (@klt RScal k0 k0). rewrite klt00. reflexivity.
Qed.
Lemma control_total k h b : reached (S:=RScal) solve pinv h b -> base_fixed false h = true -> one_threshold k0 h -> proper b -> (0 < ab_dof b)%nat -> sized_for (ab_dof b) k ->
  exists b' tau st, @compute_opspace_control RScal solve pinv k b = Ok (b', (tau, st)).
Proof.
  intros R B OT P D (F1 & F2 & F3).
  destruct (c44_total (S:=RScal) solve pinv h b (still k) R B OT D F1 F2 F3 klt00) as (b1 & tau & st & E).
  rewrite control_split, E. cbn [bind]. destruct (@klt RScal k0 (c_dt k)); [|eauto].
  destruct (c44_status (S:=RScal) solve pinv h b (still k) b1 tau st R B OT E) as (_ & _ & _ & Lt & _ & ab1 & h1 & c & R1 & B1 & E1 & X).
  assert (b1 = ab1) as ->.
  { cbn [still c_dt] in X. change (@klt RScal k0 0) with (@klt RScal k0 k0) in X. rewrite klt00 in X. exact X. }
  assert (P1 : proper ab1) by (rewrite E1; apply proper_cache; auto).
  destruct (c28_formula solve pinv h1 ab1 false tau (fun _ => None) (@IdOpts RScal true true false (1 / 100)%R) R1 B1 ltac:(discriminate) ltac:(auto) ltac:(rewrite E1; exact Lt) (IntOpts false MRk4) (c_dt k) eq_refl) as (b2 & S2 & _).
  cbn [step] in S2. match type of S2 with match ?x with _ => _ end = _ => destruct x as [b3| |] eqn:I; try discriminate end.
  match goal with |- exists _ _ _, bind ?x _ = _ => replace x with (Ok b3) by (symmetry; exact I) end. cbn [bind]. eauto.
Qed.
Lemma drive_follows h0 ab : reached (S:=RScal) solve pinv h0 ab -> base_fixed false h0 = true -> proper ab -> (0 < ab_dof ab)%nat -> forall ks h b,
  reached (S:=RScal) solve pinv h b -> base_fixed false h = true -> one_threshold k0 h -> moved ab b ->
  Forall (sized_for (ab_dof ab)) ks -> exists l, drive (S:=RScal) solve pinv (fun _ x => x) ks b = Ok l /\ follows solve pinv ab ks (state_of b) l.
Proof.
  intros R0 B0 P0 D0. induction ks as [|k ks IH]; intros h b R B OT (c & E) FK; [exists nil; split; [reflexivity|exact I]|]. cbn [drive].
  assert (Pb : proper b) by (rewrite E; apply at_proper; auto). inversion FK as [|? ? F1 F2]; subst.
  assert (DB : ab_dof b = ab_dof ab) by (rewrite E; reflexivity).
  destruct (control_total k h b R B OT Pb ltac:(rewrite DB; auto) ltac:(rewrite DB; auto)) as (b' & tau & st & C).
  match goal with |- exists l, match ?x with _ => _ end = _ /\ _ => change x with (@compute_opspace_control RScal solve pinv k b) end. rewrite C.
  destruct (c44_status (S:=RScal) solve pinv h b k b' tau st R B OT C) as (r0 & _ & _ & Lt & _).
  destruct (control_reads (S:=RScal) solve pinv h b k b' tau st R B OT C) as (r & _ & _ & _ & b1 & (h1 & c1 & R1 & B1 & OT1 & E1) & EI).
  assert (D1 : ab_dof b = ab_dof ab) by (rewrite E; reflexivity).
  assert (Q1 : state_of b1 = state_of b) by (rewrite E1; reflexivity).
  assert (E1' : b1 = set_cache (at_ ab (ab_q b1) (ab_dq b1)) (Some c1)) by (rewrite E1, E; reflexivity).
  change (@klt RScal k0 (c_dt k)) with (if Rlt_dec 0 (c_dt k) then true else false) in EI. destruct (Rlt_dec 0 (c_dt k)) as [H|H].
  - assert (P1 : proper b1) by (rewrite E1'; apply at_proper; auto).
    destruct (c28_formula solve pinv h1 b1 false tau (fun _ => None) (@IdOpts RScal true true false (1 / 100)%R) R1 B1 ltac:(discriminate) ltac:(auto) ltac:(rewrite E1; exact Lt) (IntOpts false MRk4) (c_dt k) eq_refl) as (b2 & S2 & Y).
    assert (b2 = b') as -> by (cbn [step] in S2; match type of S2 with match ?x with _ => _ end = _ => replace x with (Ok b') in S2 by (symmetry; exact EI) end; inversion S2; reflexivity).
    destruct (IH (h1 ++ [@OIntegrate RScal false tau (fun _ => None) (@IdOpts RScal true true false (1 / 100)%R) (IntOpts false MRk4) (c_dt k)]) b') as (l & Dl & Fl); auto.
    + destruct R1 as (nm & mem & R1). exists nm, mem. rewrite run_app, R1. cbn [run]. rewrite S2. reflexivity.
    + rewrite base_fixed_int. auto.
    + intros q y Hin. apply in_app_iff in Hin. destruct Hin as [Hin|[Hin|[]]]; [apply (OT1 q y Hin)|discriminate].
    + apply (moved_int ab tau no_force (@IdOpts RScal true true false (1 / 100)%R) (IntOpts false MRk4) (c_dt k) b1 b'); [exists c1; auto|exact EI].
    + exists ((tau, st, ab_q b', ab_dq b') :: l). split; [match goal with |- match ?x with _ => _ end = _ => replace x with (Ok l) by (symmetry; exact Dl) end; reflexivity|].
      cbn [follows]. destruct (Rlt_dec 0 (c_dt k)) as [H'|H']; [|tauto]. split; [|exact Fl].
      change (ab_q b', ab_dq b') with (state_of b'). rewrite Y, Q1. cbn [i_method]. replace (ab_dof b1) with (ab_dof ab) by (rewrite E1'; reflexivity). f_equal.
      extensionality pos. extensionality vel. apply (accel_same h0 ab h1 b1 _ _ _ c1); auto.
  - subst b'. destruct (IH h1 b1) as (l & Dl & Fl); auto; [exists c1; auto|].
    exists ((tau, st, ab_q b1, ab_dq b1) :: l). split; [match goal with |- match ?x with _ => _ end = _ => replace x with (Ok l) by (symmetry; exact Dl) end; reflexivity|].
    cbn [follows]. destruct (Rlt_dec 0 (c_dt k)) as [H'|H']; [tauto|]. split; [exact Q1|exact Fl].
Qed.
Lemma c64_motion h ab ks : reached (S:=RScal) solve pinv h ab -> base_fixed false h = true -> one_threshold k0 h -> proper ab -> (0 < ab_dof ab)%nat ->
  Forall (sized_for (ab_dof ab)) ks ->
  exists l, drive (S:=RScal) solve pinv (fun _ x => x) ks ab = Ok l /\ follows solve pinv ab ks (state_of ab) l.
Proof.
  intros R B OT P D F. apply (drive_follows h ab R B P D ks h ab R B OT); [|exact F].
  destruct (tk_cache _ (tree_reached _ _ _ _ R)) as [c Hc]. exists c. destruct ab; cbn in *; subst; reflexivity.
Qed.
End Real.
